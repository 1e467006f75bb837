(** * Proofs about MDiv.v, part 2: the long-division loop *)

Require Import ZArith List Bool Lia.
From Verif Require Import Prim Spec Facts MAdd PAdd PMul MShift PShift MCore PCore PBits MDiv DivSpec PDiv.
Import ListNotations.
Local Open Scope Z_scope.

(** A loop that either keeps an invariant or panics for a stated reason. *)
Lemma for_m_inv_or : forall St (Inv : nat -> St -> Prop) (bad : nat -> Prop) body k i s,
  (forall j s, (i <= j < i + k)%nat -> Inv j s ->
     (exists s', body j s = Ok s' /\ Inv (S j) s') \/ (body j s = Panic /\ bad j)) ->
  Inv i s ->
  (exists s', for_m k i body s = Ok s' /\ Inv (i + k)%nat s') \/
  (for_m k i body s = Panic /\ exists j, (i <= j < i + k)%nat /\ bad j).
Proof.
  intros St Inv bad body k. induction k; intros i s Hb Hi; cbn [for_m].
  - left. exists s. split; auto. rewrite Nat.add_0_r; auto.
  - destruct (Hb i s) as [(s' & E & Hi')|[E Hbad]]; [lia | auto | |].
    + rewrite E. cbn [bind]. destruct (IHk (S i) s') as [(s'' & E' & Hi'')|(E' & j & Hj & Hbad)].
      * intros; apply Hb; auto; lia.
      * auto.
      * left. exists s''. split; auto. replace (i + S k)%nat with (S i + k)%nat by lia. auto.
      * right. split; auto. exists j. split; auto. lia.
    + right. rewrite E. cbn [bind]. split; auto. exists i. split; auto. lia.
Qed.

Lemma top_zero : forall p t P, 0 <= p < P -> 0 <= t -> p + t * P < P -> t = 0.
Proof. intros. nia. Qed.

Section P.
Context {c : Cfg}.
Hypothesis HW : 2 <= W <= 64.

Local Notation B := (2 ^ W).
Local Notation pw n := (2 ^ (W * Z.of_nat n)).
Local Notation pwpos := (pwpos HW).
Local Notation Bp2 := (Bp2 HW).
Local Notation Bnz := (Bnz HW).
Local Notation Wn := (Wn HW).
Local Notation W32 := (W32 HW).

(** ** The digit estimate *)

Lemma pair_gt_ok : forall r rh a2, 0 <= r < B * B -> 0 <= rh < B -> 0 <= a2 < B ->
  pair_gt r rh a2 = Ok (rh * B + a2 <? r).
Proof.
  intros r rh a2 Hr Hrh Ha. unfold pair_gt. rewrite ushr_ok by (pose proof W32; lia). cbn [bind].
  f_equal. pose proof Bp2. unfold ucast.
  assert (0 <= r / B < B).
  { split; [apply Z.div_pos; lia | apply Z.div_lt_upper_bound; lia]. }
  rewrite (Z.mod_small (r / B)) by lia.
  pose proof (Z.div_mod r B Bnz) as Er. pose proof (Z.mod_pos_bound r B).
  set (h := r / B) in *. set (l := r mod B) in *.
  destruct (Z.ltb_spec rh h); cbn [orb].
  - symmetry. apply Z.ltb_lt. nia.
  - destruct (Z.eqb_spec h rh); cbn [andb].
    + destruct (Z.ltb_spec a2 l); symmetry; [apply Z.ltb_lt | apply Z.ltb_ge]; nia.
    + symmetry. apply Z.ltb_ge. nia.
Qed.

Lemma estimate_ok : forall a0 a1 a2 b0 b1,
  0 <= a0 < B -> 0 <= a1 < B -> 0 <= a2 < B -> B <= 2 * b0 -> b0 < B -> 0 <= b1 < B ->
  estimate a0 a1 (Ok a2) b0 b1 =
  Ok (if a0 <? b0 then (a0 * B * B + a1 * B + a2) / (b0 * B + b1) else B - 1).
Proof.
  intros a0 a1 a2 b0 b1 H0 H1 H2 Hb0 Hb0' Hb1. pose proof Bp2. unfold estimate.
  destruct (Z.ltb_spec a0 b0) as [Hlt|]; [|reflexivity].
  rewrite div_rem_word_ok by lia. cbn [bind].
  set (t := a0 * B + a1) in *. assert (Hb0p : 0 < b0) by lia.
  pose proof (Z.div_mod t b0 (Z.neq_sym _ _ (Z.lt_neq _ _ Hb0p))) as Et.
  pose proof (Z.mod_pos_bound t b0 Hb0p) as Hr.
  assert (Hq : 0 <= t / b0 < B).
  { unfold t. split; [apply Z.div_pos; nia | apply Z.div_lt_upper_bound; nia]. }
  set (q0 := t / b0) in *. set (r0 := t mod b0) in *.
  replace (a0 * B * B + a1 * B + a2) with (t * B + a2) by (unfold t; ring).
  unfold umul. pose proof (pow_2W' HW) as E2.
  assert (Hm : 0 <= q0 * b1 < B * B) by nia.
  rewrite uchk_ok by lia. cbn [bind]. rewrite pair_gt_ok by lia. cbn [bind].
  assert (U : forall q, q * (b0 * B + b1) <= t * B + a2 < (q + 1) * (b0 * B + b1) ->
    q = (t * B + a2) / (b0 * B + b1)).
  { intros q Hq'. apply Z.div_unique with (r := t * B + a2 - q * (b0 * B + b1)); [left|]; lia. }
  (* no larger digit fits *)
  assert (Hup : t * B + a2 < (q0 + 1) * (b0 * B + b1)).
  { assert (t + 1 <= (q0 + 1) * b0) by nia. nia. }
  destruct (Z.ltb_spec (r0 * B + a2) (q0 * b1)) as [G|G].
  2:{ f_equal. apply U. nia. }
  assert (1 <= q0) by nia. unfold usub. rewrite uchk_ok by lia. cbn [bind].
  destruct (p_overflowing_add W r0 b0) as [r1 o] eqn:Eo.
  apply p_oadd_spec in Eo; try lia. destruct Eo as [Hr1 Eo].
  assert (Hup1 : t * B + a2 < (q0 - 1 + 1) * (b0 * B + b1)) by nia.
  assert (Hm1 : 0 <= (q0 - 1) * b1 < B * B) by nia.
  destruct o; cbn [negb b2z] in *.
  - f_equal. apply U. split; auto.
    assert (B * B <= (r0 + b0) * B) by (apply Z.mul_le_mono_nonneg_r; lia). nia.
  - assert (r1 = r0 + b0) by lia. subst r1. rewrite uchk_ok by lia. cbn [bind].
    rewrite pair_gt_ok by lia. cbn [bind].
    destruct (Z.ltb_spec ((r0 + b0) * B + a2) ((q0 - 1) * b1)) as [G1|G1].
    + assert (2 <= q0) by nia. rewrite uchk_ok by lia. f_equal. apply U. split; [|nia].
      assert (B * B <= (r0 + 2 * b0) * B) by (apply Z.mul_le_mono_nonneg_r; lia).
      assert ((q0 - 2) * b1 < B * B) by nia. nia.
    + f_equal. apply U. split; auto. nia.
Qed.

Lemma pw_pred : forall n k, (k <= n)%nat -> 2 ^ (W * (Z.of_nat n - Z.of_nat k)) = pw (n - k).
Proof. intros. rewrite Nat2Z.inj_sub by auto. reflexivity. Qed.

Lemma estimate_range : forall n S D, (2 <= n)%nat -> pw n <= 2 * D -> D < pw n -> 0 <= S < D * B ->
  S / D <= digit_estimate W n S D <= S / D + 1 /\ digit_estimate W n S D < B /\ 0 <= S / D.
Proof.
  intros n S D Hn HD1 HD2 HS. pose proof Bp2 as HB.
  assert (En1 : 2 ^ (W * (Z.of_nat n - 1)) = pw (n - 1)) by (apply (pw_pred n 1); lia).
  assert (En2 : 2 ^ (W * (Z.of_nat n - 2)) = pw (n - 2)) by (apply (pw_pred n 2); lia).
  assert (E1 : pw n = B * pw (n - 1)) by (rewrite <- pow2_S by lia; do 3 f_equal; lia).
  assert (E2 : pw (n - 1) = B * pw (n - 2)) by (rewrite <- pow2_S by lia; do 3 f_equal; lia).
  unfold digit_estimate. cbv zeta. rewrite En1, En2.
  pose proof (pwpos (n - 2)) as Hp. set (P := pw (n - 2)) in *.
  assert (HDp : 0 < D) by (pose proof (pwpos n); lia).
  assert (HPnz : P <> 0) by lia. assert (HDnz : D <> 0) by lia.
  pose proof (Z.div_mod S D HDnz) as Eq. pose proof (Z.mod_pos_bound S D HDp) as Hr.
  assert (Hq0 : 0 <= S / D) by (apply Z.div_pos; lia).
  assert (HqB : S / D < B) by (apply Z.div_lt_upper_bound; lia).
  set (q := S / D) in *.
  pose proof (Z.div_mod D P HPnz) as ED. pose proof (Z.mod_pos_bound D P Hp) as HrD.
  pose proof (Z.div_mod S P HPnz) as ES. pose proof (Z.mod_pos_bound S P Hp) as HrS.
  set (b := D / P) in *. set (t := S / P) in *.
  assert (Hb : 0 < b) by (clear - ED HrD HD1 E1 E2 HB Hp; nia). assert (Hbnz : b <> 0) by lia.
  destruct (Z.ltb_spec (S / pw n) (D / pw (n - 1))) as [Hlt|Hge].
  - pose proof (Z.div_mod t b Hbnz) as Ee. pose proof (Z.mod_pos_bound t b Hb) as Hre.
    set (e := t / b) in *.
    assert (Hlow : q <= e).
    { apply Z.div_le_lower_bound; auto. apply Z.div_le_lower_bound; auto.
      clear - Eq Hr ED HrD Hq0. nia. }
    assert (HeB : e < B).
    { (* the leading limbs leave room *)
      assert (Hp1 : 0 < pw (n - 1)) by apply pwpos. assert (Hpn : 0 < pw n) by apply pwpos.
      assert (Hs1 : S < (S / pw n + 1) * pw n).
      { pose proof (Z.mul_succ_div_gt S (pw n) Hpn). lia. }
      assert (Hd1 : D / pw (n - 1) * pw (n - 1) <= D).
      { pose proof (Z.mul_div_le D (pw (n - 1)) Hp1). lia. }
      assert (S < D * B) by lia.
      apply Z.div_lt_upper_bound; auto.
      apply Z.div_lt_upper_bound; auto.
      assert (Hdb : D / pw (n - 1) = b / B).
      { unfold b. rewrite Z.div_div by lia. f_equal. rewrite E2. unfold P. ring. }
      assert (Hb2 : b / B * B <= b). { assert (HB0 : 0 < B) by lia. pose proof (Z.mul_div_le b B HB0). lia. }
      rewrite Hdb in Hlt. set (b0 := b / B) in *. set (a0 := S / pw n) in *.
      assert (Hab : a0 + 1 <= b0) by lia.
      apply Z.lt_le_trans with ((a0 + 1) * pw n); [exact Hs1|].
      apply Z.le_trans with (b0 * pw n); [apply Z.mul_le_mono_nonneg_r; lia|].
      rewrite E1, E2. replace (b0 * (B * (B * P))) with (b0 * B * (B * P)) by ring.
      replace (P * (b * B)) with (b * (B * P)) by ring.
      apply Z.mul_le_mono_nonneg_r; [apply Z.mul_nonneg_nonneg; lia | exact Hb2]. }
    split; [split; [exact Hlow|]|]; [|split; auto].
    assert (e - 1 <= q); [|lia].
    apply Z.div_le_lower_bound; auto.
    assert (X1 : e * b * P <= S) by (clear - Ee Hre ES HrS Hp; nia).
    assert (X2 : e * P <= D) by (clear - HeB HD1 E1 E2 HB Hp; nia).
    clear - X1 X2 ED HrD Hlow Hq0. nia.
  - assert (Hp1 : 0 < pw (n - 1)) by apply pwpos. assert (Hpn : 0 < pw n) by apply pwpos.
    assert (Hs1 : S / pw n * pw n <= S).
    { pose proof (Z.mul_div_le S (pw n) Hpn). lia. }
    assert (Hd1 : D < (D / pw (n - 1) + 1) * pw (n - 1)).
    { pose proof (Z.mul_succ_div_gt D (pw (n - 1)) Hp1). lia. }
    set (b0 := D / pw (n - 1)) in *. set (a0 := S / pw n) in *.
    split; [split; [lia|]|split; [lia|auto]].
    assert (B - 2 <= q); [|lia].
    apply Z.div_le_lower_bound; auto.
    assert (B <= 2 * b0 + 2) by (clear - HD1 Hd1 E1 Hp1; nia).
    apply Z.le_trans with ((b0 + 1) * pw (n - 1) * (B - 2)); [apply Z.mul_le_mono_nonneg_r; lia|].
    apply Z.le_trans with (a0 * pw n); [|exact Hs1].
    apply Z.le_trans with (b0 * pw n); [|apply Z.mul_le_mono_nonneg_r; lia].
    rewrite E1. replace ((b0 + 1) * pw (n - 1) * (B - 2)) with ((b0 + 1) * (B - 2) * pw (n - 1)) by ring.
    replace (b0 * (B * pw (n - 1))) with (b0 * B * pw (n - 1)) by ring.
    apply Z.mul_le_mono_nonneg_r; lia.
Qed.

(** ** One step *)

Section Step.
Variables (M n : nat) (lo hi : list Z).
Let j := length lo.

(** [a] holds [lo ++ mid ++ hi]. *)
Definition holds (a : list Z * Z) (mid : list Z) : Prop :=
  length (fst a) = M /\ flat a = lo ++ mid ++ hi /\ length mid = (n + 1)%nat /\ digits W mid.

Hypothesis HM : (length lo + (n + 1) + length hi = M + 1)%nat.

Lemma holds_get : forall a mid i, holds a mid -> (i < n + 1)%nat ->
  apo_get a (i + j) = Ok (nth i mid 0).
Proof.
  intros a mid i (HL & Ef & Hm & Hd) Hi. rewrite apo_get_ok by lia. rewrite Ef.
  rewrite app_nth2 by lia. rewrite app_nth1 by lia. f_equal. f_equal. lia.
Qed.

Lemma holds_get' : forall a mid k, holds a mid -> (j <= k < j + n)%nat ->
  get (fst a) k = Ok (nth (k - j) mid 0).
Proof.
  intros a mid k (HL & Ef & Hm & Hd) Hk. rewrite get_ok by lia. f_equal.
  transitivity (nth k (flat a) 0).
  - unfold flat. rewrite app_nth1; auto. lia.
  - rewrite Ef. rewrite app_nth2 by lia. rewrite app_nth1 by lia. reflexivity.
Qed.

Lemma holds_set : forall a mid i v, holds a mid -> (i < n + 1)%nat -> 0 <= v < B ->
  exists a', apo_set a (i + j) v = Ok a' /\ holds a' (upd mid i v).
Proof.
  intros a mid i v (HL & Ef & Hm & Hd) Hi Hv.
  destruct (apo_set_ok a (i + j) v) as (a' & E & HL' & Ef'); [lia|].
  exists a'. split; auto. unfold holds. rewrite length_upd. split; [lia|]. split.
  - rewrite Ef', Ef. replace (i + j)%nat with (length lo + i)%nat by lia.
    rewrite upd_app_r, upd_app_l by lia. reflexivity.
  - split; auto. apply digits_upd; auto.
Qed.

Lemma sub_mul_ok : forall a mid y, holds a mid -> digits W (flat y) -> (n <= length (fst y))%nat ->
  exists a' cy mid', sub_mul a y n j = Ok (a', cy) /\ holds a' mid' /\
    lval W mid' = lval W mid - pv W (flat y) (n + 1) + b2z cy * pw (n + 1).
Proof.
  intros a mid y Ha Hy Hn. unfold sub_mul.
  match goal with |- context [for_range ?l ?h ?b ?s0] =>
    destruct (for_range_ind _ (fun i (s : list Z * Z * bool) => exists m, holds (fst s) m /\
      lval W m = lval W mid - pv W (flat y) i + b2z (snd s) * pw i) b l h s0)
      as ((a' & cy) & E & m & Hm & Ev) end.
  - lia.
  - exists mid. cbn [fst snd b2z]. split; auto. rewrite pv_0. lia.
  - intros i (a1 & cy) Hi (m & Hm & Ev). cbn [fst snd] in *.
    rewrite (holds_get a1 m i Hm) by lia. cbn [bind].
    rewrite apo_get_ok by lia. cbn [bind].
    assert (Hmd : digits W m) by apply Hm. assert (Hml : length m = (n + 1)%nat) by apply Hm.
    pose proof (digits_nth W m i Wn Hmd) as Hx. pose proof (digits_nth W (flat y) i Wn Hy) as Hyi.
    set (x := nth i m 0) in *. set (yi := nth i (flat y) 0) in *.
    destruct (p_overflowing_add W yi (b2z cy)) as [r1 o1] eqn:E1.
    destruct (p_overflowing_sub W x r1) as [r2 o2] eqn:E2.
    assert (HW' : 1 <= W <= 64) by lia.
    apply p_oadd_spec in E1; auto; [|apply b2z_lt; auto]. destruct E1 as [Hr1 E1].
    apply p_osub_spec in E2; auto. destruct E2 as [Hr2 E2].
    destruct (holds_set a1 m i r2 Hm) as (a2 & Ea & Ha2); auto; [lia|].
    rewrite Ea. cbn [bind]. eexists. split; [reflexivity|]. cbn [fst snd].
    exists (upd m i r2). split; auto.
    rewrite lval_upd by lia. fold x. rewrite pv_S by (rewrite ?length_flat; lia). fold yi.
    rewrite pow2_S by lia. rewrite Ev. pose proof (b2z_range cy).
    assert (Er : r2 = x - yi - b2z cy + B * b2z (o1 || o2)).
    { destruct o1, o2; cbn [orb b2z] in *; lia. }
    rewrite Er. ring.
  - rewrite E. exists a', cy, m. auto.
Qed.

(** The loop of [add_back] over the first [k] limbs. *)
Definition add_back_loop (d : list Z) (k : nat) (a : list Z * Z) : res (list Z * Z * bool) :=
  for_m k 0 (fun i s => let '(num, cy) := s in
    let* x := apo_get num (i + j) in
    let* y := get d i in
    let '(res1, overflow1) := p_overflowing_add W y (b2z cy) in
    let '(res2, overflow2) := p_overflowing_add W x res1 in
    let* num := apo_set num (i + j) res2 in
    Ok (num, overflow1 || overflow2)) (a, false).

Lemma add_back_loop_ok : forall d k a mid, holds a mid -> digits W d -> (k <= length d)%nat -> (k <= n + 1)%nat ->
  exists a' cy mid', add_back_loop d k a = Ok (a', cy) /\ holds a' mid' /\
    lval W mid' = lval W mid + pv W d k - b2z cy * pw k.
Proof.
  intros d k a mid Ha Hd Hk Hkn. unfold add_back_loop.
  match goal with |- context [for_m ?k0 ?i0 ?b ?s0] =>
    destruct (for_m_inv _ (fun i (s : list Z * Z * bool) => exists m, holds (fst s) m /\
      lval W m = lval W mid + pv W d i - b2z (snd s) * pw i) b k0 i0 s0)
      as ((a' & cy) & E & m & Hm & Ev) end.
  - intros i (a1 & cy) Hi (m & Hm & Ev). cbn [fst snd] in *.
    rewrite (holds_get a1 m i Hm) by lia. cbn [bind].
    rewrite get_ok by lia. cbn [bind].
    assert (Hmd : digits W m) by apply Hm. assert (Hml : length m = (n + 1)%nat) by apply Hm.
    pose proof (digits_nth W m i Wn Hmd) as Hx. pose proof (digits_nth W d i Wn Hd) as Hyi.
    set (x := nth i m 0) in *. set (yi := nth i d 0) in *.
    destruct (p_overflowing_add W yi (b2z cy)) as [r1 o1] eqn:E1.
    destruct (p_overflowing_add W x r1) as [r2 o2] eqn:E2.
    assert (HW' : 1 <= W <= 64) by lia.
    apply p_oadd_spec in E1; auto; [|apply b2z_lt; auto]. destruct E1 as [Hr1 E1].
    apply p_oadd_spec in E2; auto. destruct E2 as [Hr2 E2].
    destruct (holds_set a1 m i r2 Hm) as (a2 & Ea & Ha2); auto; [lia|].
    rewrite Ea. cbn [bind]. eexists. split; [reflexivity|]. cbn [fst snd].
    exists (upd m i r2). split; auto.
    rewrite lval_upd by lia. fold x. rewrite pv_S by lia. fold yi.
    rewrite pow2_S by lia. rewrite Ev. pose proof (b2z_range cy).
    assert (Er : r2 = x + yi + b2z cy - B * b2z (o1 || o2)).
    { destruct o1, o2; cbn [orb b2z] in *; lia. }
    rewrite Er. ring.
  - exists mid. cbn [fst snd b2z]. split; auto. rewrite pv_0. lia.
  - rewrite E. exists a', cy, m. auto.
Qed.

Lemma add_back_eq : forall d a, add_back a d n j =
  let* (num, cy) := add_back_loop d (n + 1) a in
  let* v := apo_get num (j + n) in
  apo_set num (j + n) (p_wrapping_add W v (b2z cy)).
Proof. intros. unfold add_back, add_back_loop, for_range. rewrite Nat.sub_0_r. reflexivity. Qed.

(** The correction panics when the divisor fills its array, *)
Lemma add_back_panic : forall d a mid, holds a mid -> digits W d -> length d = n ->
  add_back a d n j = Panic.
Proof.
  intros d a mid Ha Hd HL. rewrite add_back_eq.
  destruct (add_back_loop_ok d n a mid) as (a' & cy & m & E & Hm & _); auto; try lia.
  assert (Ep : add_back_loop d (n + 1) a = Panic); [|rewrite Ep; reflexivity].
  unfold add_back_loop in *. rewrite for_m_app, E. cbn [bind for_m].
  cbn [Nat.add]. rewrite (holds_get a' m n Hm) by lia. cbn [bind].
  rewrite get_panic by lia. reflexivity.
Qed.

(** and otherwise restores the window, but also increments the limb above it. *)
Lemma add_back_ok : forall d a mid D, holds a mid -> digits W d -> (n < length d)%nat ->
  lval W d = D -> D < pw n -> pw (n + 1) <= lval W mid + D < pw (n + 1) + pw n ->
  exists a' rest, add_back a d n j = Ok a' /\ holds a' (rest ++ [1]) /\
    length rest = n /\ lval W rest = lval W mid + D - pw (n + 1).
Proof.
  intros d a mid D Ha Hd HL ED HD Hs. rewrite add_back_eq.
  destruct (add_back_loop_ok d (n + 1) a mid) as (a' & cy & m & E & Hm & Ev); auto; try lia.
  rewrite E. cbn [bind].
  assert (Hmd : digits W m) by apply Hm. assert (Hml : length m = (n + 1)%nat) by apply Hm.
  assert (Epv : pv W d (n + 1) = D).
  { rewrite pv_mod by (auto; lia). rewrite ED. apply Z.mod_small.
    pose proof (lval_lt_pw HW d Hd). pose proof (pw_mono HW n (n + 1)). lia. }
  rewrite Epv in Ev. pose proof (lval_lt_pw HW m Hmd) as Hmr. rewrite Hml in Hmr.
  assert (Hcy : cy = true). { destruct cy; auto. cbn [b2z] in Ev. lia. }
  subst cy. cbn [b2z] in *.
  replace (j + n)%nat with (n + j)%nat by lia. rewrite (holds_get a' m n Hm) by lia. cbn [bind].
  assert (Hml' : length m = S n) by lia.
  pose proof (lval_last W m n Wn Hml') as El.
  assert (Hnl : (n <= length m)%nat) by lia.
  pose proof (pv_range W m n Wn Hmd Hnl) as Hp. pose proof (digits_nth W m n Wn Hmd) as Hx.
  assert (Ht : nth n m 0 = 0) by (apply (top_zero (pv W m n) _ (pw n)); lia).
  rewrite Ht. unfold p_wrapping_add. rewrite ucast_small by (pose proof Bp2; lia).
  destruct (holds_set a' m n (0 + 1) Hm) as (a2 & Ea & Ha2); [lia | pose proof Bp2; lia |].
  exists a2, (firstn n m). rewrite Ea. split; auto.
  assert (Eu : upd m n (0 + 1) = firstn n m ++ [1]).
  { rewrite <- (firstn_skipn n m) at 1. rewrite skipn_S_nth by lia.
    rewrite skipn_all2 by lia.
    replace n with (length (firstn n m) + 0)%nat at 3 by (rewrite firstn_length_le; lia).
    rewrite upd_app_r. reflexivity. }
  rewrite Eu in Ha2. split; auto. rewrite firstn_length_le by lia. split; auto.
  change (lval W (firstn n m)) with (pv W m n). lia.
Qed.

(** The three top limbs of the window. *)
Lemma top_limbs : forall mid, digits W mid -> length mid = (n + 1)%nat -> (2 <= n)%nat ->
  nth n mid 0 = lval W mid / pw n /\
  nth n mid 0 * B * B + nth (n - 1) mid 0 * B + nth (n - 2) mid 0 = lval W mid / pw (n - 2).
Proof.
  intros mid Hd HL Hn.
  rewrite <- !(skipn_div HW) by (auto; lia).
  assert (Hs : forall k, (k < length mid)%nat -> skipn k mid = nth k mid 0 :: skipn (S k) mid)
    by (intros; apply skipn_S_nth; auto).
  rewrite (Hs n), (Hs (n - 2)%nat) by lia. replace (S (n - 2)) with (n - 1)%nat by lia.
  rewrite (Hs (n - 1)%nat) by lia. replace (S (n - 1)) with n by lia.
  rewrite (Hs n) by lia. rewrite skipn_all2 by lia. cbn [lval]. split; ring.
Qed.

Lemma top_limbs_d : forall d D, digits W d -> lval W d = D -> D < pw n -> (n <= length d)%nat -> (2 <= n)%nat ->
  nth (n - 1) d 0 = D / pw (n - 1) /\
  nth (n - 1) d 0 * B + nth (n - 2) d 0 = D / pw (n - 2).
Proof.
  intros d D Hd ED HD HL Hn.
  assert (Hd' : digits W (firstn n d)) by (apply digits_firstn; auto).
  assert (HL' : length (firstn n d) = n) by (rewrite firstn_length_le; lia).
  assert (EV : lval W (firstn n d) = D).
  { change (pv W d n = D). rewrite (pv_mod HW) by auto. rewrite ED. apply Z.mod_small.
    pose proof (lval_lt_pw HW d Hd). lia. }
  assert (Ent : forall k, (k < n)%nat -> nth k (firstn n d) 0 = nth k d 0).
  { intros k Hk. rewrite <- (firstn_skipn n d) at 2. rewrite app_nth1; auto. lia. }
  rewrite <- !Ent by lia. rewrite <- EV. set (l := firstn n d) in *.
  rewrite <- !(skipn_div HW) by (auto; lia).
  assert (Hs : forall k, (k < length l)%nat -> skipn k l = nth k l 0 :: skipn (S k) l)
    by (intros; apply skipn_S_nth; auto).
  rewrite (Hs (n - 2)%nat) by lia. replace (S (n - 2)) with (n - 1)%nat by lia.
  rewrite (Hs (n - 1)%nat) by lia. replace (S (n - 1)) with n by lia.
  rewrite skipn_all2 by lia. cbn [lval]. split; ring.
Qed.

Lemma knuth_step_ok : forall d D a mid q,
  (2 <= n <= length d)%nat -> digits W d -> lval W d = D -> pw n <= 2 * D -> D < pw n ->
  holds a mid -> lval W mid < D * B -> (j < length q)%nat ->
  let S := lval W mid in
  let over := S / D <? digit_estimate W n S D in
  (over = true -> n = length d ->
     knuth_step d n (nth (n - 1) d 0) (nth (n - 2) d 0) j (a, q) = Panic) /\
  (over = false \/ (n < length d)%nat ->
     exists a' rest, knuth_step d n (nth (n - 1) d 0) (nth (n - 2) d 0) j (a, q) = Ok (a', upd q j (S / D)) /\
       holds a' (rest ++ [b2z over]) /\ length rest = n /\ lval W rest = S mod D).
Proof.
  intros d D a mid q Hn Hd ED HD1 HD2 Ha HS Hq S over. unfold knuth_step.
  assert (Hmd : digits W mid) by apply Ha. assert (Hml : length mid = (n + 1)%nat) by apply Ha.
  assert (Hn2 : (2 <= n)%nat) by lia. assert (Hnd : (n <= length d)%nat) by lia.
  destruct (top_limbs mid Hmd Hml Hn2) as [Et Et3].
  destruct (top_limbs_d d D Hd ED HD2 Hnd Hn2) as [Eb Eb2].
  pose proof (lval_lt_pw HW mid Hmd) as HSr. fold S in HSr, HS, Et, Et3. rewrite Hml in HSr.
  replace (j + n)%nat with (n + j)%nat by lia.
  rewrite (holds_get a mid n Ha) by lia. cbn [bind].
  rewrite (holds_get' a mid (n + j - 1) Ha) by lia. cbn [bind].
  rewrite (holds_get' a mid (n + j - 2) Ha) by lia.
  replace (n + j - 1 - j)%nat with (n - 1)%nat by lia.
  replace (n + j - 2 - j)%nat with (n - 2)%nat by lia.
  pose proof (digits_nth W mid n Wn Hmd). pose proof (digits_nth W mid (n - 1) Wn Hmd).
  pose proof (digits_nth W mid (n - 2) Wn Hmd).
  pose proof (digits_nth W d (n - 1) Wn Hd). pose proof (digits_nth W d (n - 2) Wn Hd).
  assert (Hb0 : B <= 2 * nth (n - 1) d 0).
  { assert (E1 : pw n = B * pw (n - 1)) by (rewrite <- pow2_S by lia; do 3 f_equal; lia).
    pose proof (pwpos (n - 1)) as Hp1. pose proof (Z.mul_succ_div_gt D (pw (n - 1)) Hp1).
    pose proof (pow2_half W) as Hh. pose proof (pow2_pos (W - 1)) as Hhp.
    rewrite Eb. set (b0 := D / pw (n - 1)) in *.
    assert (B < 2 * (b0 + 1)) by (clear - E1 Hp1 HD1 H4; nia). lia. }
  rewrite estimate_ok by lia. cbn [bind].
  assert (Ee : (if nth n mid 0 <? nth (n - 1) d 0
     then (nth n mid 0 * B * B + nth (n - 1) mid 0 * B + nth (n - 2) mid 0) /
          (nth (n - 1) d 0 * B + nth (n - 2) d 0)
     else B - 1) = digit_estimate W n S D).
  { unfold digit_estimate. cbv zeta.
    assert (En1 : 2 ^ (W * (Z.of_nat n - 1)) = pw (n - 1)) by (apply (pw_pred n 1); lia).
    assert (En2 : 2 ^ (W * (Z.of_nat n - 2)) = pw (n - 2)) by (apply (pw_pred n 2); lia).
    rewrite En1, En2, Et3, Et, Eb2, Eb. reflexivity. }
  rewrite Ee. clear Ee.
  destruct (estimate_range n S D Hn2 HD1 HD2) as (He & HeB & Hq0); [lia|].
  set (e := digit_estimate W n S D) in *.
  destruct (full_mul_u64_ok HW d e Hd) as (y & Ey & Hyl & Hyd & Hyv); [lia|].
  rewrite Ey. cbn [bind].
  destruct (sub_mul_ok a mid y Ha Hyd) as (a1 & cy & m1 & Es & Hm1 & Ev1); [lia|].
  rewrite Es. cbn [bind].
  assert (HDp : 0 < D). { pose proof (pwpos n). lia. }
  assert (HDnz : D <> 0) by lia.
  pose proof (Z.div_mod S D HDnz) as Eq. pose proof (Z.mod_pos_bound S D HDp) as Hr.
  assert (Epw : pw (n + 1) = B * pw n) by (rewrite (pw_add HW), pw_1; ring).
  pose proof (pwpos n) as Hpn.
  assert (Epy : pv W (flat y) (n + 1) = D * e).
  { rewrite (pv_mod HW) by (auto; rewrite length_flat; lia). rewrite Hyv, ED. apply Z.mod_small.
    clear - HeB He Hq0 HDp HD2 Epw Hpn. nia. }
  rewrite Epy in Ev1. fold S in Ev1.
  assert (Hm1d : digits W m1) by apply Hm1. assert (Hm1l : length m1 = (n + 1)%nat) by apply Hm1.
  pose proof (lval_lt_pw HW m1 Hm1d) as Hm1r. rewrite Hm1l in Hm1r.
  assert (Hcy : cy = over).
  { unfold over. destruct (Z.ltb_spec (S / D) e); destruct cy; auto; cbn [b2z] in Ev1; exfalso;
      clear - H4 Ev1 Eq Hr Hm1r Epw HD2 He Hpn; nia. }
  subst cy. unfold over in *. clear over.
  destruct (Z.ltb_spec (S / D) e) as [Ho|Ho]; cbn [b2z] in *.
  - assert (e = S / D + 1) by lia. unfold usub. rewrite uchk_ok by lia. cbn [bind]. split.
    + intros _ HL. rewrite (add_back_panic d a1 m1) by auto. reflexivity.
    + intros [?|HL]; [discriminate|].
      destruct (add_back_ok d a1 m1 D) as (a2 & rest & Ea & Ha2 & HLr & Ev2); auto.
      { rewrite Ev1. clear - H4 Eq Hr Epw HD2. nia. }
      rewrite Ea. cbn [bind]. rewrite set_ok by lia. cbn [bind].
      replace (e - 1) with (S / D) by lia. exists a2, rest. split; auto. split; auto. split; auto.
      rewrite Ev2, Ev1. clear - H4 Eq. nia.
  - split; [intros; discriminate|]. intros _. cbn [bind]. rewrite set_ok by lia. cbn [bind].
    assert (e = S / D) by lia. exists a1, (firstn n m1).
    assert (Hm1l' : length m1 = Datatypes.S n) by lia.
    pose proof (lval_last W m1 n Wn Hm1l') as El.
    assert (Hnl : (n <= length m1)%nat) by lia.
    pose proof (pv_range W m1 n Wn Hm1d Hnl) as Hp. pose proof (digits_nth W m1 n Wn Hm1d) as Hx.
    assert (Evm : lval W m1 = S mod D) by (clear - Ev1 Eq H4; nia).
    assert (Ht : nth n m1 0 = 0) by (apply (top_zero (pv W m1 n) _ (pw n)); lia).
    split; [congruence|].
    assert (Eu : m1 = firstn n m1 ++ [0]).
    { rewrite <- (firstn_skipn n m1) at 1. rewrite skipn_S_nth by lia.
      rewrite skipn_all2 by lia. rewrite Ht. reflexivity. }
    rewrite <- Eu. split; auto. rewrite firstn_length_le by lia. split; auto.
    change (lval W (firstn n m1)) with (pv W m1 n). rewrite Ht in El. lia.
Qed.

End Step.

(** ** The main loop *)

Lemma skipn_zero : forall l k, digits W l -> (k <= length l)%nat -> lval W l < pw k ->
  skipn k l = repeat 0 (length l - k).
Proof.
  intros l k Hd Hk Hl. apply (lval_inj W); auto using digits_skipn.
  - lia.
  - rewrite skipn_length, repeat_length. reflexivity.
  - apply digits_repeat0. lia.
  - rewrite lval_repeat0, (skipn_div HW) by auto. apply Z.div_small.
    pose proof (lval_lt_pw HW l Hd). lia.
Qed.

Section Loop.
Variables (M n m : nat) (d : list Z) (D A : Z).
Hypotheses (Hn : (2 <= n <= length d)%nat) (Hd : digits W d) (ED : lval W d = D).
Hypotheses (HD1 : pw n <= 2 * D) (HD2 : D < pw n) (HM : (n + m <= M)%nat).
Hypothesis (HA0 : 0 <= A).
Hypothesis (HA : A < D * pw (m + 1)).

Let corr := overestimated W n A D.

Definition junk (J : nat) : list Z :=
  map (fun j => b2z (corr j)) (seq J (m + 1 - J)) ++ repeat 0 (M - n - m).

Definition kinv (k : nat) (s : list Z * Z * list Z) : Prop :=
  let J := (m + 1 - k)%nat in
  exists low, length (fst (fst s)) = M /\ flat (fst s) = low ++ junk J /\
    length low = (J + n)%nat /\ digits W low /\ lval W low = A mod (D * pw J) /\
    length (snd s) = M /\ digits W (snd s) /\ lval W (snd s) = A / (D * pw J) * pw J /\
    (n = length d -> forall j, (J <= j <= m)%nat -> corr j = false).

Lemma D_pos : 0 < D.
Proof. pose proof (pwpos n). lia. Qed.

Lemma window_low : forall j,
  A mod (D * pw (S j)) / pw j = window W A D j /\
  A mod (D * pw (S j)) mod pw j = A mod pw j.
Proof.
  intros j. pose proof (pwpos j) as Hp. pose proof D_pos. pose proof Bp2.
  unfold window. replace (D * pw (S j)) with (pw j * (D * B)) by (rewrite (pw_S HW); ring).
  assert (HDB : 0 < D * B) by nia.
  rewrite Z.rem_mul_r by lia. pose proof (Z.mod_pos_bound A (pw j) Hp).
  rewrite (Z.mul_comm (pw j) ((A / pw j) mod (D * B))).
  split.
  - rewrite Z.div_add by lia. rewrite Z.div_small by auto. lia.
  - rewrite Z.mod_add by lia. rewrite Z.mod_mod by lia. reflexivity.
Qed.

Lemma quo_step : forall j, A / (D * pw j) = B * (A / (D * pw (S j))) + window W A D j / D.
Proof.
  intros j. pose proof (pwpos j) as Hp. pose proof D_pos. pose proof Bp2.
  rewrite (pw_S HW). replace (D * (B * pw j)) with (pw j * (D * B)) by ring.
  rewrite (Z.mul_comm D). assert (HDB : 0 < D * B) by nia.
  rewrite <- !Z.div_div by lia. unfold window. set (X := A / pw j).
  assert (EX : X = B * (X / D / B) * D + X mod (D * B)).
  { rewrite Z.div_div by lia. assert (Hnz : D * B <> 0) by lia.
    pose proof (Z.div_mod X (D * B) Hnz). nia. }
  rewrite EX at 1. rewrite Z.div_add_l by lia. reflexivity.
Qed.

Lemma rem_step : forall j, A mod pw j + pw j * (window W A D j mod D) = A mod (D * pw j).
Proof.
  intros j. pose proof (pwpos j) as Hp. pose proof D_pos. pose proof Bp2.
  rewrite (Z.mul_comm D). rewrite Z.rem_mul_r by lia. unfold window.
  assert (E : (A / pw j) mod (D * B) mod D = (A / pw j) mod D).
  { rewrite Z.rem_mul_r by lia. rewrite (Z.mul_comm D (A / pw j / D mod B)), Z.mod_add by lia. apply Z.mod_mod. lia. }
  rewrite E. reflexivity.
Qed.

Lemma junk_step : forall J, (J <= m)%nat -> junk J = b2z (corr J) :: junk (S J).
Proof.
  intros J HJ. unfold junk. replace (m + 1 - J)%nat with (S (m + 1 - S J)) by lia. reflexivity.
Qed.

Lemma kinv_init : forall a, length (fst a) = M -> digits W (flat a) -> lval W (flat a) = A ->
  kinv 0 (a, repeat 0 M).
Proof.
  intros a HL Hda HAv. unfold kinv. cbn [fst snd]. rewrite Nat.sub_0_r.
  pose proof D_pos. pose proof (pwpos (m + 1)).
  assert (Hlt : A < pw (m + 1 + n)).
  { rewrite (pw_add HW). nia. }
  assert (HLf : length (flat a) = (M + 1)%nat) by (rewrite length_flat; lia).
  exists (firstn (m + 1 + n) (flat a)). split; auto. split; [|split; [|split; [|split; [|split; [|split; [|split]]]]]].
  - rewrite <- (firstn_skipn (m + 1 + n) (flat a)) at 1. f_equal.
    rewrite skipn_zero by (auto; lia). unfold junk. rewrite Nat.sub_diag. cbn [seq map app].
    f_equal. lia.
  - rewrite firstn_length_le; lia.
  - apply digits_firstn; auto.
  - change (pv W (flat a) (m + 1 + n) = A mod (D * pw (m + 1))).
    rewrite (pv_mod HW) by (auto; lia). rewrite HAv. rewrite !Z.mod_small; auto; lia.
  - apply repeat_length.
  - apply digits_repeat0. lia.
  - rewrite lval_repeat0. rewrite Z.div_small by lia. lia.
  - intros _ j Hj. lia.
Qed.

Lemma kinv_step : forall k s, (k < m + 1)%nat -> kinv k s ->
  (exists s', knuth_step d n (nth (n - 1) d 0) (nth (n - 2) d 0) (m - k) s = Ok s' /\ kinv (S k) s') \/
  (knuth_step d n (nth (n - 1) d 0) (nth (n - 2) d 0) (m - k) s = Panic /\ (n = length d /\ corr (m - k) = true)).
Proof.
  intros k (a & q) Hk (low & HL & Ef & HLl & Hdl & Evl & HLq & Hdq & Evq & Hc). cbn [fst snd] in *.
  set (j := (m - k)%nat) in *. replace (m + 1 - k)%nat with (S j) in * by lia.
  assert (Hjm : (j <= m)%nat) by lia.
  pose proof D_pos as HDp. pose proof (pwpos j) as Hpj. pose proof Bp2 as HB.
  pose proof (window_low j) as (Ew & Ewm).
  set (lo := firstn j low). set (mid := skipn j low).
  assert (Elow : low = lo ++ mid) by (symmetry; apply firstn_skipn).
  assert (Hlo : length lo = j) by (unfold lo; rewrite firstn_length_le; lia).
  assert (Hmid : length mid = (n + 1)%nat) by (unfold mid; rewrite skipn_length; lia).
  assert (Hmd : digits W mid) by (apply digits_skipn; auto).
  assert (Hlod : digits W lo) by (apply digits_firstn; auto).
  assert (ES : lval W mid = window W A D j).
  { unfold mid. rewrite (skipn_div HW) by (auto; lia). rewrite Evl. exact Ew. }
  assert (Elo : lval W lo = A mod pw j).
  { change (pv W low j = A mod pw j). rewrite (pv_mod HW) by (auto; lia). rewrite Evl. exact Ewm. }
  assert (Hholds : holds M n lo (junk (S j)) a mid).
  { unfold holds. rewrite Ef, Elow, app_assoc. auto. }
  assert (HLs : (length lo + (n + 1) + length (junk (S j)) = M + 1)%nat).
  { assert (HLf : length (flat a) = (M + 1)%nat) by (rewrite length_flat; lia).
    rewrite Ef, Elow, !app_length in HLf. lia. }
  assert (HwB : 0 <= window W A D j < D * B).
  { unfold window. apply Z.mod_pos_bound. nia. }
  destruct (knuth_step_ok M n lo (junk (S j)) HLs d D a mid q) as [Hp Ho]; auto; try lia.
  rewrite ES in Hp, Ho. cbv zeta in Hp, Ho. rewrite Hlo in Hp, Ho. fold (overestimated W n A D j) in Hp, Ho.
  fold corr in Hp, Ho.
  assert (Hdec : (corr j = true /\ n = length d) \/ (corr j = false \/ (n < length d)%nat)).
  { destruct (corr j); [|tauto]. destruct (Nat.eq_dec n (length d)); [tauto|]. right. right. lia. }
  destruct Hdec as [[Hct Hnd]|Hok].
  { right. split; auto. }
  left. destruct (Ho Hok) as (a' & rest & Es & Hh & HLr & Evr). rewrite Es.
  exists (a', upd q j (window W A D j / D)). split; auto.
  unfold kinv. cbn [fst snd]. replace (m + 1 - S k)%nat with j by lia.
  destruct Hh as (HL' & Ef' & Hl1 & Hd1).
  exists (lo ++ rest). apply digits_app in Hd1. destruct Hd1 as [Hdr _].
  split; auto. split; [|split; [|split; [|split; [|split; [|split; [|split]]]]]].
  - rewrite Ef', (junk_step j) by lia. rewrite <- !app_assoc. reflexivity.
  - rewrite app_length. lia.
  - apply digits_app. auto.
  - rewrite (lval_app_c HW), Hlo, Elo, Evr. apply rem_step.
  - rewrite length_upd. auto.
  - apply digits_upd; auto. split; [apply Z.div_pos; lia | apply Z.div_lt_upper_bound; lia].
  - assert (Hnz : nth j q 0 = 0).
    { assert (Hpv : pv W q (S j) = 0).
      { rewrite (pv_mod HW) by (auto; lia). rewrite Evq. apply Z.mod_mul. pose proof (pwpos (S j)); lia. }
      rewrite pv_S in Hpv by lia. assert (Hjq : (j <= length q)%nat) by lia.
      pose proof (pv_range W q j Wn Hdq Hjq). pose proof (digits_nth W q j Wn Hdq). nia. }
    rewrite lval_upd by lia. rewrite Hnz, Evq, (quo_step j), (pw_S HW). ring.
  - intros Hnd i Hi. destruct (Nat.eq_dec i j) as [->|].
    + destruct Hok; [auto|lia].
    + apply Hc; auto. lia.
Qed.

Lemma existsb_corr : existsb corr (seq 0 (m + 1)) = true <-> exists j, (j <= m)%nat /\ corr j = true.
Proof.
  rewrite existsb_exists. split; intros (j & Hj & Hc); exists j; split; auto.
  - apply in_seq in Hj. lia.
  - apply in_seq. lia.
Qed.

Lemma knuth_loop_ok : forall a, length (fst a) = M -> digits W (flat a) -> lval W (flat a) = A ->
  let r := for_range 0 (m + 1) (fun k s => knuth_step d n (nth (n - 1) d 0) (nth (n - 2) d 0) (m - k) s)
             (a, repeat 0 M) in
  (n = length d -> existsb corr (seq 0 (m + 1)) = true -> r = Panic) /\
  ((n < length d)%nat \/ existsb corr (seq 0 (m + 1)) = false ->
   exists a' q, r = Ok (a', q) /\ q = lenc W M (A / D) /\
     length (fst a') = M /\ digits W (fst a') /\
     lval W (fst a') = A mod D + pw n * lval W (firstn (M - n) (map (fun j => b2z (corr j)) (seq 0 (m + 1))))).
Proof.
  intros a HL Hda HAv r.
  destruct (for_m_inv_or _ kinv (fun k => n = length d /\ corr (m - k) = true)
    (fun k s => knuth_step d n (nth (n - 1) d 0) (nth (n - 2) d 0) (m - k) s) (m + 1) 0 (a, repeat 0 M))
    as [((a' & q) & E & Hi)|(E & k & Hk & Hnd & Hc)].
  - intros k s Hk Hi. apply kinv_step; auto. lia.
  - apply kinv_init; auto.
  - assert (Er : r = Ok (a', q)) by (unfold r, for_range; rewrite Nat.sub_0_r; exact E).
    cbn [Nat.add] in Hi. destruct Hi as (low & HL' & Ef & HLl & Hdl & Evl & HLq & Hdq & Evq & Hc).
    cbn [fst snd] in *. rewrite Nat.sub_diag in *. pose proof D_pos as HDp.
    rewrite pw_0, ?Z.mul_1_r in Evl, Evq. rewrite ?Z.mul_1_r in Evq. cbn [Nat.add] in HLl.
    split.
    { intros Hnd Hex. apply existsb_corr in Hex. destruct Hex as (j & Hj & Hcj).
      rewrite (Hc Hnd j) in Hcj by lia. discriminate. }
    intros _. exists a', q. split; auto. split.
    { apply lenc_unique; auto; [lia|]. rewrite Evq. reflexivity. }
    split; auto.
    assert (HLj : length (junk 0) = (M - n + 1)%nat).
    { unfold junk. rewrite app_length, map_length, seq_length, repeat_length. lia. }
    assert (Efst : fst a' = low ++ firstn (M - n) (junk 0)).
    { assert (E1 : fst a' = firstn M (flat a')).
      { unfold flat. rewrite firstn_app, HL', Nat.sub_diag. cbn [firstn]. rewrite app_nil_r.
        rewrite <- HL'. symmetry. apply firstn_all. }
      rewrite E1, Ef, firstn_app, HLl. rewrite firstn_all2 by lia. reflexivity. }
    assert (Hdj : digits W (junk 0)).
    { unfold junk. apply digits_app. split; [|apply digits_repeat0; lia].
      apply Forall_forall. intros v Hv. apply in_map_iff in Hv. destruct Hv as (j & <- & _).
      pose proof (b2z_range (corr j)). pose proof Bp2. lia. }
    rewrite Efst. split; [apply digits_app; split; auto; apply digits_firstn; auto|].
    rewrite (lval_app_c HW), HLl, Evl. f_equal. f_equal.
    unfold junk. rewrite Nat.sub_0_r. rewrite firstn_app, (lval_app_c HW).
    assert (Ez : forall a b, lval W (firstn a (repeat 0 b)) = 0).
    { intros a0. induction a0; intros [|b]; cbn [repeat firstn lval]; auto. rewrite IHa0. lia. }
    rewrite Ez. lia.
  - assert (Er : r = Panic) by (unfold r, for_range; rewrite Nat.sub_0_r; exact E).
    split; auto. intros Ho. exfalso.
    assert (Hex : existsb corr (seq 0 (m + 1)) = true).
    { apply existsb_corr. exists (m - k)%nat. split; auto. lia. }
    destruct Ho; [lia|congruence].
Qed.

End Loop.

(** ** [div_rem_knuth] *)

Lemma top_limb_bounds : forall l n, digits W l -> (1 <= n <= length l)%nat ->
  pw (n - 1) <= lval W l < pw n ->
  lval W l = pv W l (n - 1) + nth (n - 1) l 0 * pw (n - 1) /\ 0 < nth (n - 1) l 0 < B /\
  0 <= pv W l (n - 1) < pw (n - 1).
Proof.
  intros l n Hd Hn Hv.
  assert (E : lval W l = pv W l (n - 1) + nth (n - 1) l 0 * pw (n - 1)).
  { rewrite <- pv_S by lia. replace (S (n - 1)) with n by lia. rewrite (pv_mod HW) by (auto; lia).
    symmetry. apply Z.mod_small. pose proof (lval_lt_pw HW l Hd). lia. }
  assert (Hnl : (n - 1 <= length l)%nat) by lia.
  pose proof (pv_range W l (n - 1) Wn Hd Hnl). pose proof (digits_nth W l (n - 1) Wn Hd).
  repeat split; auto; try lia.
Qed.

Lemma limbs_of_eq : forall v n, (1 <= n)%nat -> pw (n - 1) <= v < pw n -> limbs_of W v = Z.of_nat n.
Proof.
  intros v n Hn Hv. unfold limbs_of. pose proof (pwpos (n - 1)).
  assert (Hv0 : 0 < v) by lia.
  assert (H1 : W * Z.of_nat (n - 1) <= Z.log2 v) by (apply Z.log2_le_pow2; lia).
  assert (H2 : Z.log2 v < W * Z.of_nat n) by (apply Z.log2_lt_pow2; lia).
  assert (E : Z.log2 v / W = Z.of_nat n - 1); [|lia].
  symmetry. apply Z.div_unique with (r := Z.log2 v - W * (Z.of_nat n - 1)); [left|]; nia.
Qed.

Lemma norm_shift_eq : forall l n, digits W l -> (1 <= n <= length l)%nat ->
  pw (n - 1) <= lval W l < pw n ->
  p_leading_zeros W (nth (n - 1) l 0) = norm_shift W (lval W l).
Proof.
  intros l n Hd Hn Hv. destruct (top_limb_bounds l n Hd Hn Hv) as (E & Ht & Hp).
  unfold norm_shift. rewrite (limbs_of_eq (lval W l) n) by (auto; lia).
  unfold p_leading_zeros. replace (nth (n - 1) l 0 =? 0) with false by (symmetry; apply Z.eqb_neq; lia).
  rewrite E at 1. rewrite (Z.mul_comm (nth (n - 1) l 0)). assert (Hwn : 0 <= W * Z.of_nat (n - 1)) by (apply Z.mul_nonneg_nonneg; lia). rewrite log2_top by lia. rewrite Nat2Z.inj_sub by lia. lia.
Qed.

End P.
