(** * Scans: runs that stop at the first word that settles the answer (MTrace.v) *)

Require Import ZArith List Bool Lia.
From Verif Require Import Prim Spec MAdd MMul MShift MCore MArith MTrace Facts PAdd PMul PCore PWide PBits PLayout PLayout2 PropsDevel PTrace PTrace2.
Import ListNotations.
Local Open Scope Z_scope.

(** a loop counting down to [d]; [g j] are the steps of the round that reaches [j] *)
Lemma while_down : forall St (Inv : St -> Prop) (pos : St -> nat) (g : nat -> list ev) d cond body fuel s,
  (forall s, Inv s -> (d <= pos s)%nat -> cond s = (d <? pos s)%nat) ->
  (forall s, Inv s -> (d < pos s)%nat ->
     exists s', body s = (g (pos s - 1)%nat, Ok s') /\ Inv s' /\ pos s' = (pos s - 1)%nat) ->
  Inv s -> (d <= pos s <= fuel)%nat ->
  exists s', while_t fuel cond body s =
    (Br (d <? pos s)%nat :: flat_map (fun j => g j ++ [Br (d <? j)%nat]) (rev (seq d (pos s - d))), Ok s') /\
    Inv s' /\ pos s' = d.
Proof.
  intros St Inv pos g d cond body fuel. induction fuel as [|fuel IH]; intros s HC HB HI HF; cbn [while_t].
  - assert (pos s = d) as E by lia. rewrite HC by (auto; lia). rewrite E, Nat.ltb_irrefl, Nat.sub_diag.
    exists s. cbn. auto.
  - rewrite HC by (auto; lia). destruct (Nat.ltb_spec d (pos s)) as [L|L].
    + destruct (HB s HI L) as (s1 & E1 & HI1 & P1). destruct (IH s1 HC HB HI1) as (s2 & E2 & HI2 & P2); [lia|].
      exists s2. split; [|auto]. cbn [test tbind]. rewrite E1. cbn [tbind]. rewrite E2, P1.
      replace (pos s - d)%nat with (S (pos s - 1 - d)) by lia. rewrite seq_S, rev_app_distr.
      cbn [rev app flat_map]. replace (d + (pos s - 1 - d))%nat with (pos s - 1)%nat by lia.
      rewrite <- !app_assoc. reflexivity.
    + replace (pos s) with d by lia. rewrite Nat.sub_diag. exists s. cbn. repeat split; auto. lia.
Qed.
(** the same counting up to [e] *)
Lemma while_up : forall St (Inv : St -> Prop) (pos : St -> nat) (g : nat -> list ev) e cond body fuel s,
  (forall s, Inv s -> (pos s <= e)%nat -> cond s = (pos s <? e)%nat) ->
  (forall s, Inv s -> (pos s < e)%nat ->
     exists s', body s = (g (pos s), Ok s') /\ Inv s' /\ pos s' = S (pos s)) ->
  Inv s -> (pos s <= e)%nat -> (e - pos s <= fuel)%nat ->
  exists s', while_t fuel cond body s =
    (Br (pos s <? e)%nat :: flat_map (fun j => g j ++ [Br (S j <? e)%nat]) (seq (pos s) (e - pos s)), Ok s') /\
    Inv s' /\ pos s' = e.
Proof.
  intros St Inv pos g e cond body fuel. induction fuel as [|fuel IH]; intros s HC HB HI HE HF; cbn [while_t].
  - assert (pos s = e) as E by lia. rewrite HC by (auto; lia). rewrite E, Nat.ltb_irrefl, Nat.sub_diag.
    exists s. cbn. auto.
  - rewrite HC by (auto; lia). destruct (Nat.ltb_spec (pos s) e) as [L|L].
    + destruct (HB s HI L) as (s1 & E1 & HI1 & P1). destruct (IH s1 HC HB HI1) as (s2 & E2 & HI2 & P2); [lia|lia|].
      exists s2. split; [|auto]. cbn [test tbind]. rewrite E1. cbn [tbind]. rewrite E2, P1.
      replace (e - pos s)%nat with (S (e - S (pos s))) by lia. cbn [seq flat_map].
      rewrite <- !app_assoc. reflexivity.
    + replace (pos s) with e by lia. rewrite Nat.sub_diag. exists s. cbn. repeat split; auto. lia.
Qed.

(** [d] is where a scan from the top of [n] words stops: the highest
    position with [p], or the bottom *)
Definition top_stop (p : nat -> Prop) (n d : nat) : Prop :=
  (d < n)%nat /\ (forall i, (d < i < n)%nat -> ~ p i) /\ (d = 0%nat \/ p d).
(** [e] words are looked at by a scan from the bottom: up to the lowest
    position with [p], or all *)
Definition low_stop (p : nat -> Prop) (n e : nat) : Prop :=
  (0 < e <= n)%nat /\ (forall i, (i < e - 1)%nat -> ~ p i) /\ (e = n \/ p (e - 1)%nat).
Lemma top_stop_ex : forall (p : nat -> Prop) n, (forall i, p i \/ ~ p i) -> (0 < n)%nat -> exists d, top_stop p n d.
Proof.
  intros p n Hp. induction n as [|n IH]; intros Hn; [lia|].
  destruct (Hp n) as [Y|X].
  - exists n. unfold top_stop. repeat split; auto; lia.
  - destruct (Nat.eq_dec n 0) as [->|H0].
    + exists 0%nat. unfold top_stop. repeat split; auto; lia.
    + destruct IH as (d & H1 & H2 & H3); [lia|]. exists d. split; [lia|]. split; [|exact H3].
      intros i Hi. destruct (Nat.eq_dec i n) as [->|]; auto. apply H2; lia.
Qed.
Lemma top_stop_uniq : forall p n d d', top_stop p n d -> top_stop p n d' -> d = d'.
Proof.
  intros p n d d' (L & U & S) (L' & U' & S'). destruct (Nat.lt_trichotomy d d') as [H|[H|H]]; auto; exfalso.
  - destruct S' as [->|S']; [lia|]. apply (U d'); auto; lia.
  - destruct S as [->|S]; [lia|]. apply (U' d); auto; lia.
Qed.
Lemma low_stop_ex : forall (p : nat -> Prop) n, (forall i, p i \/ ~ p i) -> (0 < n)%nat -> exists e, low_stop p n e.
Proof.
  intros p n Hp Hn.
  assert (A : forall k, (k <= n)%nat -> (forall i, (i < k)%nat -> ~ p i) \/ exists e, low_stop p n e).
  { induction k as [|k IH]; intros Hk; [left; lia|]. destruct IH as [H|H]; [lia| |auto].
    destruct (Hp k) as [Y|X].
    - right. exists (S k). unfold low_stop. replace (S k - 1)%nat with k by lia. repeat split; auto; lia.
    - left. intros i Hi. destruct (Nat.eq_dec i k) as [->|]; auto. apply H; lia. }
  destruct (A n (le_n n)) as [H|H]; auto. exists n. unfold low_stop. repeat split; auto; try lia. intros. apply H; lia.
Qed.

Section Scans.
Context {c : Cfg}.
Hypothesis HV : Valid.

(** ** Comparisons *)
Section Cmp.
Variables (x y : list Z) (d : nat).
Hypothesis Hx : wf x.
Hypothesis Hy : wf y.
Local Notation lx := (to_wide x).
Local Notation ly := (to_wide y).
Hypothesis HD : top_stop (fun i => nth i lx 0 <> nth i ly 0) WIDE d.
Definition down_steps : list ev := flat_map (fun j => [Rd j; Rd j; Br (d <? j)%nat]) (rev (seq d (WIDE - d))).

Lemma stop_eqb : forall i, (i < WIDE)%nat -> (d <= i)%nat -> (nth i lx 0 =? nth i ly 0) = (d <? i)%nat \/ i = 0%nat.
Proof.
  intros i Hi Hdi. destruct HD as (_ & H1 & H2). destruct (Nat.ltb_spec d i) as [L|L].
  - left. apply Z.eqb_eq. specialize (H1 i ltac:(lia)). destruct (Z.eq_dec (nth i lx 0) (nth i ly 0)); tauto.
  - assert (i = d) by lia. subst i. destruct H2 as [->|H2]; auto. left. apply Z.eqb_neq. auto.
Qed.
Lemma as_hi_eqb : forall sg i, (as_hi sg (nth i lx 0) =? as_hi sg (nth i ly 0)) = (nth i lx 0 =? nth i ly 0).
Proof.
  intros sg i. assert (H2 : 0 <= 2 * W) by (pose proof (tHW HV); lia).
  pose proof (digits_nth (2 * W) lx i H2 (wx_dig HV x Hx)). pose proof (digits_nth (2 * W) ly i H2 (wx_dig HV y Hy)).
  destruct (Z.eqb_spec (nth i lx 0) (nth i ly 0)) as [E|E].
  - rewrite E. apply Z.eqb_refl.
  - apply Z.eqb_neq. intros A. apply E. eapply as_hi_inj; eauto.
Qed.

Lemma ord_steps : forall sg op1 op2, (forall a, op1 a a = false) ->
  fst (t_ord_macro sg op1 op2 x y) = down_steps.
Proof.
  intros sg op1 op2 Hop. unfold t_ord_macro. pose proof (WIDE_ge2 HV) as Hw.
  pose proof (wx_len HV x Hx) as Lx. pose proof (wx_len HV y Hy) as Ly. pose proof HD as (Hd & _).
  rewrite fst_tbind. cbn [rd fst snd]. rewrite get_ok by lia.
  rewrite fst_tbind. cbn [rd fst snd]. rewrite get_ok by lia.
  rewrite fst_tbind.
  match goal with |- context [while_t ?fu ?cd ?bd ?st] =>
    destruct (while_down _ (fun t : bool * bool * nat => let '(o, q, i) := t in (i < WIDE)%nat /\
      q = (nth i lx 0 =? nth i ly 0) /\ (q = true -> (0 < i)%nat -> o = false))
      (fun t => snd t) (fun j => [Rd j; Rd j]) d cd bd fu st) as (t & E & _) end.
  - intros ((o & q) & i) (Hi & -> & Ho) Hdi. cbn [snd] in *.
    destruct (stop_eqb i Hi Hdi) as [E|E].
    + rewrite E in *. destruct (Nat.ltb_spec d i).
      * rewrite (Ho eq_refl) by lia. replace (0 <? i)%nat with true by (symmetry; apply Nat.ltb_lt; lia). reflexivity.
      * rewrite !andb_false_r. reflexivity.
    + subst i. cbn. destruct (Nat.ltb_spec d 0); [lia|reflexivity].
  - intros ((o & q) & i) (Hi & _ & _) Hdi. cbn [snd] in *. eexists. split.
    + cbn [rd tbind]. rewrite !get_ok by lia. cbn [tbind quiet app]. reflexivity.
    + cbn [snd]. repeat split; try lia. intros Q Hp. apply Z.eqb_eq in Q. rewrite Q.
      destruct (Nat.eqb_spec (i - 1) 0); [lia|]. apply Hop.
  - split; [lia|]. split; [apply as_hi_eqb|]. intros Q _. rewrite as_hi_eqb in Q. apply Z.eqb_eq in Q. rewrite Q. apply Hop.
  - cbn [snd]. lia.
  - rewrite E. cbn [fst snd]. destruct t as ((o & q) & i). cbn [quiet fst]. rewrite app_nil_r.
    unfold down_steps. replace (WIDE - d)%nat with (S (WIDE - 1 - d)) by lia. rewrite seq_S, rev_app_distr.
    cbn [rev app flat_map]. replace (d + (WIDE - 1 - d))%nat with (WIDE - 1)%nat by lia. reflexivity.
Qed.

Lemma cmp_steps : forall sg, exists o, cmp_const sg x y = Ok o /\
  fst (t_cmp_const sg x y) = down_steps ++ match o with Lt => [Br true] | Gt => [Br false; Br true] | Eq => [Br false; Br false] end.
Proof.
  intros sg. rewrite <- te_cmp_const. unfold t_cmp_const. pose proof (WIDE_ge2 HV) as Hw.
  pose proof (wx_len HV x Hx) as Lx. pose proof (wx_len HV y Hy) as Ly. pose proof HD as (Hd & _).
  rewrite fst_tbind, snd_tbind. cbn [rd fst snd]. rewrite get_ok by lia. cbn [bind].
  rewrite fst_tbind, snd_tbind. cbn [rd fst snd]. rewrite get_ok by lia. cbn [bind].
  rewrite fst_tbind, snd_tbind.
  match goal with |- context [while_t ?fu ?cd ?bd ?st] =>
    destruct (while_down _ (fun t : bool * bool * bool * nat => let '(q, l, g, i) := t in (i < WIDE)%nat /\
      q = (nth i lx 0 =? nth i ly 0) /\ (q = true -> l = false /\ g = false))
      (fun t => snd t) (fun j => [Rd j; Rd j]) d cd bd fu st) as (t & E & _) end.
  - intros (((q & l) & g) & i) (Hi & -> & Ho) Hdi. cbn [snd] in *.
    destruct (stop_eqb i Hi Hdi) as [E|E].
    + rewrite E in *. destruct (Nat.ltb_spec d i).
      * destruct (Ho eq_refl) as (-> & ->). replace (0 <? i)%nat with true by (symmetry; apply Nat.ltb_lt; lia). reflexivity.
      * rewrite !andb_false_r. reflexivity.
    + subst i. cbn. destruct (Nat.ltb_spec d 0); [lia|reflexivity].
  - intros (((q & l) & g) & i) (Hi & _ & _) Hdi. cbn [snd] in *. eexists. split.
    + cbn [rd tbind]. rewrite !get_ok by lia. cbn [tbind quiet app]. reflexivity.
    + cbn [snd]. split; [|lia]. split; [lia|]. split; [reflexivity|]. intros Q. apply Z.eqb_eq in Q. rewrite Q.
      rewrite !Z.ltb_irrefl. auto.
  - split; [lia|]. split; [apply as_hi_eqb|]. intros Q. rewrite as_hi_eqb in Q. apply Z.eqb_eq in Q. rewrite Q.
    rewrite !Z.ltb_irrefl. auto.
  - cbn [snd]. lia.
  - rewrite E. cbn [fst snd bind]. destruct t as (((q & l) & g) & i).
    assert (S : [Rd (WIDE - 1)] ++ [Rd (WIDE - 1)] ++
      (Br (d <? WIDE - 1)%nat :: flat_map (fun j => [Rd j; Rd j] ++ [Br (d <? j)%nat]) (rev (seq d (WIDE - 1 - d)))) = down_steps).
    { unfold down_steps. replace (WIDE - d)%nat with (S (WIDE - 1 - d)) by lia. rewrite seq_S, rev_app_distr.
      cbn [rev app flat_map]. replace (d + (WIDE - 1 - d))%nat with (WIDE - 1)%nat by lia. reflexivity. }
    destruct l, g; eexists; (split; [cbn; reflexivity|]); rewrite <- S, <- !app_assoc; reflexivity.
Qed.
End Cmp.

Lemma branched_steps : forall x y e, wf x -> wf y ->
  low_stop (fun i => nth i (to_wide x) 0 <> nth i (to_wide y) 0) WIDE e ->
  fst (t_eq_branched x y) = Br true :: flat_map (fun j => [Rd j; Rd j; Br (S j <? e)%nat]) (seq 0 e).
Proof.
  intros x y e Hx Hy (He & H1 & H2). unfold t_eq_branched.
  pose proof (wx_len HV x Hx) as Lx. pose proof (wx_len HV y Hy) as Ly.
  set (lx := to_wide x) in *. set (ly := to_wide y) in *. rewrite fst_tbind.
  match goal with |- context [while_t ?fu ?cd ?bd ?st] =>
    destruct (while_up _ (fun t : bool * nat => let '(q, i) := t in (i <= e)%nat /\
      ((i < e)%nat -> q = true) /\ (i = e -> e = WIDE \/ q = false))
      (fun t => snd t) (fun j => [Rd j; Rd j]) e cd bd fu st) as (t & E & _) end.
  - intros (q & i) (Hi & Hq & Hn) _. cbn [snd]. destruct (Nat.ltb_spec i e).
    + rewrite Hq by lia. rewrite andb_true_r. apply Nat.ltb_lt. lia.
    + assert (i = e) by lia. subst i. destruct (Hn eq_refl) as [Q|Q].
      * rewrite Q, Nat.ltb_irrefl. reflexivity.
      * rewrite Q. apply andb_false_r.
  - intros (q & i) (Hi & Hq & Hn) HL. cbn [snd] in *. eexists. split.
    + cbn [rd tbind]. rewrite !get_ok by lia. cbn [tbind quiet app]. reflexivity.
    + cbn [snd]. split; [|lia]. rewrite Hq by lia. cbn [andb]. split; [lia|]. split.
      * intros L. apply Z.eqb_eq. destruct (Z.eq_dec (nth i lx 0) (nth i ly 0)) as [Q|Q]; auto.
        exfalso. apply (H1 i); auto. lia.
      * intros Q. destruct H2 as [->|H2]; auto. right. apply Z.eqb_neq. replace (e - 1)%nat with i in H2 by lia. auto.
  - split; [lia|]. split; [reflexivity|]. lia.
  - cbn; lia.
  - cbn [snd]. lia.
  - rewrite E. cbn [fst snd]. destruct t as (q & i). cbn [quiet fst]. rewrite app_nil_r, Nat.sub_0_r.
    replace (0 <? e)%nat with true by (symmetry; apply Nat.ltb_lt; lia). reflexivity.
Qed.

(** ** Counting zeros *)
Lemma lead_steps : forall x d, wf x -> top_stop (fun i => nth i x 0 <> 0) N d ->
  fst (t_leading_zeros x) = Br true :: flat_map (fun j => Rd j :: checks true ++ [Br (d <? j)%nat]) (rev (seq d (N - d))).
Proof.
  intros x d Hx (Hd & H1 & H2). pose proof Hx as (HL & Dx). pose proof (tHW HV) as HW. pose proof (BITS_lt HV) as HB.
  unfold BITS in HB. unfold t_leading_zeros. rewrite fst_tbind.
  match goal with |- context [while_t ?fu ?cd ?bd ?st] =>
    destruct (while_down _ (fun t : Z * nat => let '(q, i) := t in (i <= N)%nat /\ 0 <= q <= Z.of_nat i * W /\
      ((d < N - i)%nat -> q = Z.of_nat i * W) /\ ((N - i)%nat = d -> i = N \/ q <> Z.of_nat i * W))
      (fun t => N - snd t)%nat (fun j => Rd j :: checks true) d cd bd fu st) as (t & E & _) end.
  - intros (q & i) (Hi & Hr & Hq & Hn) Hp. cbn [snd] in *. destruct (Nat.ltb_spec d (N - i)).
    + rewrite Hq, Z.eqb_refl by lia. rewrite andb_true_r. apply Nat.ltb_lt. lia.
    + destruct Hn as [->|Hn]; [lia| |].
      * rewrite Nat.ltb_irrefl. reflexivity.
      * apply Z.eqb_neq in Hn. rewrite Hn. apply andb_false_r.
  - intros (q & i) (Hi & Hr & Hq & Hn) Hp. cbn [snd] in *. specialize (Hq Hp).
    assert (D : 0 <= nth (N - i - 1) x 0 < 2 ^ W) by (apply digits_nth; auto; lia).
    assert (P : 0 <= p_leading_zeros W (nth (N - i - 1) x 0) <= W /\
      (p_leading_zeros W (nth (N - i - 1) x 0) = W <-> nth (N - i - 1) x 0 = 0)).
    { unfold p_leading_zeros. destruct (Z.eqb_spec (nth (N - i - 1) x 0) 0); [lia|].
      assert (0 <= Z.log2 (nth (N - i - 1) x 0) < W).
      { split; [apply Z.log2_nonneg | apply Z.log2_lt_pow2; lia]. }
      lia. }
    assert (Z.of_nat i * W + W <= Z.of_nat N * W) by nia.
    eexists. split.
    + cbn [rd tbind]. rewrite get_ok by lia. cbn [tbind t_uadd]. unfold uadd.
      rewrite in_u_true, uchk_ok by lia. cbn [tbind quiet app]. rewrite app_nil_r. reflexivity.
    + cbn [snd]. split; [|lia]. split; [lia|]. split; [lia|]. split.
      * intros L. specialize (H1 (N - i - 1)%nat ltac:(lia)).
        assert (nth (N - i - 1) x 0 = 0) by (destruct (Z.eq_dec (nth (N - i - 1) x 0) 0); tauto).
        apply P in H0. lia.
      * intros Q. destruct H2 as [->|H2]; [left; lia|]. right. replace (N - i - 1)%nat with d in * by lia.
        intros A. apply H2, P. nia.
  - cbn. split; [lia|]. split; [lia|]. split; intros; lia.
  - cbn [snd]. lia.
  - rewrite E. cbn [fst snd]. destruct t as (q & i). cbn [quiet fst]. rewrite app_nil_r, Nat.sub_0_r.
    replace (d <? N)%nat with true by (symmetry; apply Nat.ltb_lt; lia). reflexivity.
Qed.
Lemma trail_steps : forall x e, wf x -> low_stop (fun i => nth i x 0 <> 0) N e ->
  fst (t_trailing_zeros x) = Br true :: flat_map (fun j => Rd j :: checks true ++ [Br (S j <? e)%nat]) (seq 0 e).
Proof.
  intros x e Hx (He & H1 & H2). pose proof Hx as (HL & Dx). pose proof (tHW HV) as HW. pose proof (BITS_lt HV) as HB.
  unfold BITS in HB. unfold t_trailing_zeros. rewrite fst_tbind.
  match goal with |- context [while_t ?fu ?cd ?bd ?st] =>
    destruct (while_up _ (fun t : Z * nat => let '(q, i) := t in (i <= e)%nat /\
      ((i < e)%nat -> q = Z.of_nat i * W) /\ (i = e -> e = N \/ q <> Z.of_nat i * W))
      (fun t => snd t)%nat (fun j => Rd j :: checks true) e cd bd fu st) as (t & E & _) end.
  - intros (q & i) (Hi & Hq & Hn) Hp. cbn [snd] in *. destruct (Nat.ltb_spec i e).
    + rewrite Hq, Z.eqb_refl by lia. rewrite andb_true_r. apply Nat.ltb_lt. lia.
    + assert (i = e) by lia. subst i. destruct (Hn eq_refl) as [Q|Q].
      * rewrite Q, Nat.ltb_irrefl. reflexivity.
      * apply Z.eqb_neq in Q. rewrite Q. apply andb_false_r.
  - intros (q & i) (Hi & Hq & Hn) Hp. cbn [snd] in *. specialize (Hq Hp).
    assert (D : 0 <= nth i x 0 < 2 ^ W) by (apply digits_nth; auto; lia).
    assert (P : 0 <= p_trailing_zeros W (nth i x 0) <= W /\ (p_trailing_zeros W (nth i x 0) = W <-> nth i x 0 = 0)).
    { unfold p_trailing_zeros. destruct (nth i x 0) as [|p|p] eqn:Ep; [lia| |lia].
      destruct (ctz_pos_spec p) as (T0 & m & Em & Hm).
      assert (ctz_pos p < W).
      { destruct (Z.lt_ge_cases (ctz_pos p) W); auto.
        assert (2 ^ W <= 2 ^ ctz_pos p) by (apply pow2_le_mono; lia). nia. }
      lia. }
    assert (Z.of_nat i * W + W <= Z.of_nat N * W) by nia.
    eexists. split.
    + cbn [rd tbind]. rewrite get_ok by lia. cbn [tbind t_uadd]. unfold uadd.
      rewrite in_u_true, uchk_ok by lia. cbn [tbind quiet app]. rewrite app_nil_r. reflexivity.
    + cbn [snd]. split; [|lia]. split; [lia|]. split.
      * intros L. specialize (H1 i ltac:(lia)).
        assert (nth i x 0 = 0) by (destruct (Z.eq_dec (nth i x 0) 0); tauto).
        apply P in H0. lia.
      * intros Q. destruct H2 as [->|H2]; [left; lia|]. right. replace (e - 1)%nat with i in H2 by lia.
        intros A. apply H2, P. nia.
  - cbn. split; [lia|]. split; [lia|]. lia.
  - cbn; lia.
  - cbn [snd]. lia.
  - rewrite E. cbn [fst snd]. destruct t as (q & i). cbn [quiet fst]. rewrite app_nil_r, Nat.sub_0_r.
    replace (0 <? e)%nat with true by (symmetry; apply Nat.ltb_lt; lia). reflexivity.
Qed.

Lemma sm_count_ones : forall x x', wf x -> wf x' -> same (fun _ _ => True) (t_count_ones x) (t_count_ones x').
Proof.
  intros x x' Hx Hx'. unfold t_count_ones, for_ranget. pose proof (tHW HV) as HW. pose proof (BITS_lt HV) as HB. unfold BITS in HB.
  eapply same_weaken; [|auto].
  eapply (same_for _ (fun i s s' => 0 <= s <= Z.of_nat i * W /\ 0 <= s' <= Z.of_nat i * W)); [lia|].
  intros j s s' Hj (Hs & Hs').
  eapply same_bind; [apply same_rd; destruct Hx, Hx'; congruence|]. intros v v' _.
  assert (W0 : 0 <= W) by lia. pose proof (p_ones_range W v W0). pose proof (p_ones_range W v' W0).
  assert (Z.of_nat j * W + W <= Z.of_nat N * W) by nia.
  unfold t_uadd, uadd. rewrite !in_u_true, !uchk_ok by lia. split; [reflexivity|]. cbn [snd alike]. nia.
Qed.

(** ** The sign *)
Lemma positive_steps : forall x d, wf x -> top_stop (fun i => nth i x 0 <> 0) N d ->
  let neg := (2 ^ (W - 1) <=? nth (N - 1) x 0) in
  fst (t_is_positive x) =
    Rd (N - 1) :: Br neg ::
    (if neg then [] else
     Br (0 <? nth (N - 1) x 0) ::
     if 0 <? nth (N - 1) x 0 then [] else flat_map (fun j => [Rd j; Br (0 <? nth j x 0)]) (rev (seq d (N - 1 - d)))).
Proof.
  intros x d Hx (Hd & H1 & H2) neg. pose proof Hx as (HL & Dx). pose proof (tHW HV) as HW.
  assert (HN : (2 <= N)%nat) by (pose proof (WIDE_ge2 HV); pose proof (N_wide HV); lia).
  unfold t_is_positive. assert (W0 : 0 <= W) by lia.
  pose proof (digits_nth W x (N - 1) W0 Dx) as D. set (v := nth (N - 1) x 0) in *.
  assert (P2 : 2 ^ W = 2 * 2 ^ (W - 1)) by (apply pow2_half; lia).
  assert (E1 : (scast W v <? 0) = neg).
  { unfold scast, neg. rewrite Z.mod_small by lia. destruct (Z.ltb_spec v (2 ^ (W - 1))), (Z.leb_spec (2 ^ (W - 1)) v); lia. }
  rewrite fst_tbind. rewrite fst_tbind, snd_tbind. cbn [rd fst snd]. rewrite get_ok by lia. fold v.
  cbn [bind quiet fst snd app]. rewrite fst_tbind. cbn [test fst snd]. rewrite E1. cbn [app]. do 2 f_equal.
  destruct neg eqn:En; [reflexivity|]. unfold neg in En. apply Z.leb_gt in En.
  assert (E2 : scast W v = v).
  { unfold scast. rewrite Z.mod_small by lia. destruct (Z.ltb_spec v (2 ^ (W - 1))); lia. }
  rewrite E2. rewrite fst_tbind. cbn [test fst snd app]. f_equal. destruct (Z.ltb_spec 0 v) as [Hv|Hv]; [reflexivity|].
  assert (Hv0 : v = 0) by lia.
  assert (Hd1 : (d <= N - 2)%nat).
  { destruct H2 as [->|H2]; [lia|]. destruct (Nat.eq_dec d (N - 1)) as [->|]; [|lia]. fold v in H2. tauto. }
  unfold for_ranget. rewrite Nat.sub_0_r.
  assert (F1 : forall k i, fst (for_t k i (fun j found => if found : bool then quiet (Ok true)
      else let% l := rd x (N - 1 - 1 - j) in test (0 <? l)) true) = []).
  { induction k as [|k IH]; intros i; [reflexivity|]. cbn [for_t]. rewrite fst_tbind. cbn [quiet fst snd app]. apply IH. }
  assert (F2 : forall k i, (i + k = N - 1)%nat -> (i <= N - 2 - d)%nat ->
    fst (for_t k i (fun j found => if found : bool then quiet (Ok true)
      else let% l := rd x (N - 1 - 1 - j) in test (0 <? l)) false) =
    flat_map (fun j => [Rd j; Br (0 <? nth j x 0)]) (rev (seq d (N - 1 - i - d)))).
  { induction k as [|k IH]; intros i Hik Hi; [lia|]. cbn [for_t]. rewrite fst_tbind. cbn [rd tbind]. rewrite get_ok by lia.
    cbn [test fst snd app].
    replace (N - 1 - i - d)%nat with (S (N - 1 - S i - d)) by lia. rewrite seq_S, rev_app_distr. cbn [rev app flat_map].
    replace (d + (N - 1 - S i - d))%nat with (N - 1 - 1 - i)%nat by lia. f_equal. f_equal.
    pose proof (digits_nth W x (N - 1 - 1 - i) W0 Dx).
    destruct (Nat.eq_dec (N - 1 - 1 - i) d) as [Q|Q].
    - rewrite Q. replace (N - 1 - S i - d)%nat with 0%nat by lia. cbn [seq rev flat_map].
      destruct (Z.ltb_spec 0 (nth d x 0)); [apply F1|]. destruct H2 as [->|H2]; [|rewrite Q in *; lia].
      replace k with 0%nat by lia. reflexivity.
    - replace (nth (N - 1 - 1 - i) x 0) with 0.
      + cbn [Z.ltb]. change (0 <? 0) with false. rewrite IH by lia. reflexivity.
      + specialize (H1 (N - 1 - 1 - i)%nat ltac:(lia)). destruct (Z.eq_dec (nth (N - 1 - 1 - i) x 0) 0); tauto || lia. }
  rewrite F2 by lia. rewrite Nat.sub_0_r. reflexivity.
Qed.
End Scans.
