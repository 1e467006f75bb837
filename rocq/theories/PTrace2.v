(** * Equal and exact runs (MTrace.v) *)

Require Import ZArith List Bool Lia.
From Verif Require Import Prim Spec MAdd MMul MShift MCore MArith MTrace Facts PAdd PMul PCore PWide PBits PTrace.
Import ListNotations.
Local Open Scope Z_scope.

Section Lengths.
Context {c : Cfg}.
Lemma eql_rep : forall v v' n, eql (repeat v n) (repeat v' n).
Proof. intros. unfold eql. rewrite !repeat_length. reflexivity. Qed.
Hint Resolve eql_rep : core.
Ltac go := repeat (sm1 || (progress cbn [fst snd]) ||
  match goal with |- same _ (match ?p with pair _ _ => _ end) (match ?q with pair _ _ => _ end) => destruct p, q end).
(** the second array may differ in content but not in length *)
Ltac start x x' H := unfold eql in H; rewrite <- ?H; change (length x = length x') with (eql x x') in H.

Lemma sm_add_wrapping_full : forall x x' y y', eql x x' -> eql y y' ->
  same eql (t_add_wrapping_full x y) (t_add_wrapping_full x' y').
Proof.
  intros x x' y y' Hx Hy. unfold t_add_wrapping_full. start x x' Hx. pose proof (eql_rep 0 0 (length x)).
  eapply (same_bind _ _ (@eqlf bool)).
  - go.
  - intros (? & ?) (? & ?) HR. go.
Qed.
Lemma sm_add_overflowing_full : forall x x' y y', eql x x' -> eql y y' ->
  same eqlf (t_add_overflowing_full x y) (t_add_overflowing_full x' y').
Proof.
  intros x x' y y' Hx Hy. unfold t_add_overflowing_full. start x x' Hx. pose proof (eql_rep 0 0 (length x)). go.
Qed.
Lemma sm_sadd_overflowing_full : forall x x' y y', eql x x' -> eql y y' ->
  same eqlf (t_sadd_overflowing_full x y) (t_sadd_overflowing_full x' y').
Proof.
  intros x x' y y' Hx Hy. unfold t_sadd_overflowing_full. start x x' Hx. pose proof (eql_rep 0 0 (length x)). sm1.
  eapply (same_bind _ _ (@eqlf bool)).
  - go.
  - intros (? & ?) (? & ?) HR. go.
Qed.
Lemma sm_sub_wrapping_full : forall x x' y y', eql x x' -> eql y y' ->
  same eql (t_sub_wrapping_full x y) (t_sub_wrapping_full x' y').
Proof.
  intros x x' y y' Hx Hy. unfold t_sub_wrapping_full. start x x' Hx. pose proof (eql_rep 0 0 (length x)). sm1.
  eapply (same_bind _ _ (@eqlf bool)).
  - go.
  - intros (? & ?) (? & ?) HR. go.
Qed.
Lemma sm_sub_overflowing_full : forall x x' y y', eql x x' -> eql y y' ->
  same eqlf (t_sub_overflowing_full x y) (t_sub_overflowing_full x' y').
Proof.
  intros x x' y y' Hx Hy. unfold t_sub_overflowing_full. start x x' Hx. pose proof (eql_rep 0 0 (length x)). go.
Qed.
Lemma sm_ssub_overflowing_full : forall x x' y y', eql x x' -> eql y y' ->
  same eqlf (t_ssub_overflowing_full x y) (t_ssub_overflowing_full x' y').
Proof.
  intros x x' y y' Hx Hy. unfold t_ssub_overflowing_full. start x x' Hx. pose proof (eql_rep 0 0 (length x)). sm1.
  eapply (same_bind _ _ (@eqlf bool)).
  - go.
  - intros (? & ?) (? & ?) HR. go.
Qed.
Lemma sm_not_const : forall x x', eql x x' -> same eql (t_not_const x) (t_not_const x').
Proof.
  intros x x' Hx. unfold t_not_const. pose proof (eql_rep 0 0 N).
  eapply same_bind; [|intros; apply same_mk; eassumption]. go.
Qed.
Lemma sm_bitwise : forall op op' x x' y y', eql x x' -> eql y y' -> same eql (t_bitwise op x y) (t_bitwise op' x' y').
Proof.
  intros op op' x x' y y' Hx Hy. unfold t_bitwise. pose proof (eql_rep 0 0 N).
  eapply same_bind; [|intros; apply same_mk; eassumption]. go.
Qed.
Lemma sm_shl_array : forall w x x' s, eql x x' -> same eql (t_shl_array w x s) (t_shl_array w x' s).
Proof.
  intros w x x' s Hx. unfold t_shl_array. start x x' Hx. pose proof (eql_rep 0 0 (length x)). go.
  - eapply (same_bind _ _ (fun _ _ => True)).
    + go; apply same_ok; exact I.
    + intros (? & ?) (? & ?) _. go.
  - eapply (same_bind _ _ (@eqlf Z)).
    + go.
    + intros (? & ?) (? & ?) HR. go.
Qed.
Lemma sm_shr_array : forall w sg x x' s, eql x x' ->
  (sg = true -> (scast w (nth (length x - 1) x 0) <? 0) = (scast w (nth (length x - 1) x' 0) <? 0)) ->
  same eql (t_shr_array w sg x s) (t_shr_array w sg x' s).
Proof.
  intros w sg x x' s Hx Hs. unfold t_shr_array. start x x' Hx. do 3 sm1.
  eapply (same_bind _ _ eq).
  { destruct sg.
    - eapply same_bind; [apply same_rd; assumption|]. intros v v' (_ & -> & ->). rewrite (Hs eq_refl).
      eapply same_weaken; [apply same_test; reflexivity|]. intros ? ? (-> & ->). reflexivity.
    - eapply (same_bind _ _ (fun _ _ => True)).
      + pose proof (same_rd' x x' (length x - 1) Hx) as (_ & HH). split; [reflexivity | exact HH].
      + intros ? ? _. apply same_ok; reflexivity. }
  intros neg ? <-.
  set (r0 := if neg then _ else _). assert (HR : eql r0 r0) by reflexivity. clearbody r0.
  destruct (length x =? 2)%nat.
  - do 2 sm1. eapply (same_bind _ _ (fun _ _ => True)).
    + go; try (apply same_ok; exact I).
      eapply (same_bind _ _ (fun _ _ => True)).
      * destruct sg; go; try (apply same_ok; exact I). apply same_amountr.
      * intros ? ? _. go. apply same_ok; exact I.
    + intros (? & ?) (? & ?) _. go.
  - go.
    eapply (same_bind _ _ (@eqlf Z)); [|intros (? & ?) (? & ?) HH; go].
    go. eapply (same_bind _ _ (fun _ _ => True)).
      * go; try (apply same_ok; exact I). apply same_amountr.
      * intros ? ? _. go.
Qed.
Lemma sm_rotl_array : forall w x x' s, eql x x' -> same eql (t_rotl_array w x s) (t_rotl_array w x' s).
Proof.
  intros w x x' s Hx. unfold t_rotl_array. start x x' Hx. pose proof (eql_rep 0 0 (length x)). do 4 sm1.
  destruct (length x =? 2)%nat.
  - eapply (same_bind _ _ (fun _ _ => True)); [go; apply same_ok; exact I|]. intros (? & ?) (? & ?) _.
    eapply (same_bind _ _ (fun _ _ => True)); [go; apply same_ok; exact I|]. intros (? & ?) (? & ?) _. go.
  - sm1. destruct (negb _).
    + eapply (same_bind _ _ (@eqlf Z)); [go|]. intros (? & ?) (? & ?) HH. go.
    + go.
Qed.
Lemma sm_rotr_array : forall w x x' s, eql x x' -> same eql (t_rotr_array w x s) (t_rotr_array w x' s).
Proof.
  intros w x x' s Hx. unfold t_rotr_array. start x x' Hx. do 4 sm1. apply sm_rotl_array; auto.
Qed.
Lemma sm_eq_branchless : forall x x' y y', eql (to_wide x) (to_wide x') -> eql (to_wide y) (to_wide y') ->
  same (fun _ _ => True) (t_eq_branchless x y) (t_eq_branchless x' y').
Proof.
  intros x x' y y' Hx Hy. unfold t_eq_branchless. apply same_rng; [exact I|]. intros. go. apply same_ok; exact I.
Qed.
End Lengths.

(** ** Runs that need limbs in range *)

Section Ranges.
Context {c : Cfg}.
Hypothesis HV : Valid.
Local Notation B := (2 ^ W).
Lemma tHW : 1 <= W <= 64.
Proof. destruct (W_cases HV) as [-> | ->]; lia. Qed.
Definition dig (a a' : list Z) : Prop := length a = length a' /\ digits W a /\ digits W a'.
Definition lim (v v' : Z) : Prop := 0 <= v < B /\ 0 <= v' < B.
Lemma sm_rd_dig : forall a a' i, dig a a' -> same lim (rd a i) (rd a' i).
Proof.
  intros a a' i (HL & Ha & Ha'). eapply same_weaken; [apply same_rd; auto|].
  intros v v' (_ & -> & ->). pose proof tHW. split; apply digits_nth; auto; lia.
Qed.
Lemma sm_wr_dig : forall a a' i v v', dig a a' -> lim v v' -> same dig (wr a i v) (wr a' i v').
Proof.
  intros a a' i v v' (HL & Ha & Ha') (Hv & Hv'). eapply same_weaken; [apply same_wr; auto|].
  intros r r' (_ & -> & ->). unfold dig. rewrite !length_upd. split; [auto|]. split; apply digits_upd; auto.
Qed.
Lemma sm_mac : forall a b d cy a' b' d' cy', lim a a' -> lim b b' -> lim d d' -> lim cy cy' ->
  same (fun r r' => lim (fst r) (fst r') /\ lim (snd r) (snd r')) (t_mac a b d cy) (t_mac a' b' d' cy').
Proof.
  assert (A : forall a b d cy, 0 <= a < B -> 0 <= b < B -> 0 <= d < B -> 0 <= cy < B ->
    fst (t_mac a b d cy) = checks true ++ checks true ++ checks true /\
    exists r, snd (t_mac a b d cy) = Ok r /\ 0 <= fst r < B /\ 0 <= snd r < B).
  { intros a b d cy Ha Hb Hd Hc. split.
    - unfold t_mac. pose proof tHW.
      assert (E2 : 2 ^ (2 * W) = B * B) by (rewrite <- Z.pow_add_r by lia; f_equal; lia).
      rewrite fst_tbind. cbn [t_umul fst snd]. unfold umul. rewrite uchk_ok, in_u_true by nia.
      rewrite fst_tbind. cbn [t_uadd fst snd]. unfold uadd. rewrite uchk_ok, in_u_true by nia.
      rewrite fst_tbind. cbn [t_uadd fst snd]. unfold uadd. rewrite uchk_ok, in_u_true by nia.
      rewrite fst_tbind. cbn [quiet fst snd]. rewrite ushr_ok by lia. cbn [quiet fst]. rewrite !app_nil_r. reflexivity.
    - rewrite te_mac. destruct (mac_ok tHW a b d cy) as (lo & hi & E & H1 & H2 & _); auto. exists (lo, hi). auto. }
  intros a b d cy a' b' d' cy' (Ha & Ha') (Hb & Hb') (Hd & Hd') (Hc & Hc').
  destruct (A a b d cy) as (E & r & Er & R1 & R2); auto. destruct (A a' b' d' cy') as (E' & r' & Er' & R1' & R2'); auto.
  split; [congruence|]. rewrite Er, Er'. unfold lim. cbn. auto.
Qed.
Lemma lim0 : lim 0 0.
Proof. pose proof tHW. pose proof (pow2_pos W). unfold lim. lia. Qed.
Lemma dig0 : forall n, dig (repeat 0 n) (repeat 0 n).
Proof. intros. pose proof tHW. split; [reflexivity|]. split; apply digits_repeat0; lia. Qed.

Lemma sm_mul_wrapping_full : forall x x' y y', dig x x' -> dig y y' ->
  same dig (t_mul_wrapping_full x y) (t_mul_wrapping_full x' y').
Proof.
  intros x x' y y' Hx Hy. unfold t_mul_wrapping_full. rewrite <- (proj1 Hx), <- (proj1 Hy). sm1.
  apply same_rng; [apply dig0|]. intros i r r' Hi HR.
  eapply same_bind; [apply sm_rd_dig; auto|]. intros xi xi' Hxi.
  eapply (same_bind _ _ (fun s s' => dig (fst s) (fst s') /\ lim (snd s) (snd s'))).
  - apply same_rng; [split; [assumption | apply lim0]|]. intros j (r1 & c1) (r1' & c1') Hj (H1 & H2). cbn [fst snd] in *.
    eapply same_bind; [apply sm_rd_dig; auto|]. intros yj yj' Hyj.
    eapply same_bind; [apply sm_rd_dig; auto|]. intros rj rj' Hrj.
    eapply same_bind; [apply sm_mac; auto|]. intros (v & c2) (v' & c2') (Hv & Hc2). cbn [fst snd] in *.
    eapply same_bind; [apply sm_wr_dig; auto|]. intros r2 r2' Hr2. apply same_ok; auto.
  - intros (r1 & c1) (r1' & c1') (H1 & H2). cbn [fst snd] in *.
    destruct (_ && _); [apply sm_wr_dig; auto | apply same_ok; auto].
Qed.
Lemma sm_mul_widening : forall x x' y y', dig x x' -> dig y y' ->
  same (fun r r' => dig (fst r) (fst r') /\ dig (snd r) (snd r')) (t_mul_widening x y) (t_mul_widening x' y').
Proof.
  intros x x' y y' Hx Hy. unfold t_mul_widening. rewrite <- (proj1 Hx).
  apply same_rng; [split; apply dig0|]. intros i (lo & hi) (lo' & hi') Hi (HR & HR'). cbn [fst snd] in *.
  eapply same_bind; [apply sm_rd_dig; auto|]. intros xi xi' Hxi.
  eapply (same_bind _ _ (fun s s' => dig (fst (fst s)) (fst (fst s')) /\ dig (snd (fst s)) (snd (fst s')) /\ lim (snd s) (snd s'))).
  - apply same_rng; [cbn; auto using lim0|]. intros j ((l1 & h1) & c1) ((l1' & h1') & c1') Hj (H1 & H2 & H3). cbn [fst snd] in *.
    eapply same_bind; [apply sm_rd_dig; auto|]. intros yj yj' Hyj.
    destruct (_ <? _)%nat;
      (eapply same_bind; [apply sm_rd_dig; eassumption|]; intros rj rj' Hrj;
       eapply same_bind; [apply sm_mac; eassumption|]; intros (v & c2) (v' & c2') (Hv & Hc2); cbn [fst snd] in *;
       eapply same_bind; [apply sm_wr_dig; eassumption|]; intros r2 r2' Hr2; apply same_ok; cbn; auto).
  - intros ((l1 & h1) & c1) ((l1' & h1') & c1') (H1 & H2 & H3). cbn [fst snd] in *.
    destruct (_ <? _)%nat; (eapply same_bind; [apply sm_wr_dig; eassumption|]; intros r2 r2' Hr2; apply same_ok; cbn; auto).
Qed.
End Ranges.
