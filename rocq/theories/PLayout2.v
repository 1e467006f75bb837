(** * Facts about the memory layout, continued: the accessors *)

Require Import ZArith List Bool Lia Permutation.
From Verif Require Import Prim Spec Facts MShift MCore PCore PBits PWide MScalar PScalar MLayout PLayout.
Import ListNotations.
Local Open Scope Z_scope.

Section L.
Context {c : Cfg}.
Hypothesis HV : Valid.

Lemma w8_wide : w8 (2 * limb_bytes) = 2 * W.
Proof. pose proof (kW HV) as H. unfold w8 in *. lia. Qed.
Lemma N_wide : N = (2 * WIDE)%nat.
Proof. unfold WIDE. destruct (N_even HV) as (j & _ & E). rewrite E. rewrite (Nat.mul_comm 2 j) at 2. rewrite Nat.div_mul by lia. lia. Qed.

Lemma to_wide_lenc : forall x, wf x -> to_wide x = lenc (2 * W) WIDE (uval x).
Proof.
  intros x [HL D]. pose proof (HW1 HV). rewrite N_wide in HL. apply lenc_unique.
  - lia.
  - apply (wide_digits HV); auto.
  - apply wide_length; auto.
  - rewrite (wide_lval HV _ _ HL). reflexivity.
Qed.

(** The reinterpretation as wide elements is the joining of neighbours. *)
Lemma mem_to_wide : forall be x, wf x -> to_ne_wide be (ord be x) = Ok (ord be (to_wide x)).
Proof.
  intros be x Hx. unfold to_ne_wide. rewrite (to_ne_words_ok HV _ _ (wide_len HV)) by auto.
  rewrite w8_wide, (WIDE_eq HV), to_wide_lenc by auto. reflexivity.
Qed.
Lemma mem_from_wide : forall be l, digits (2 * W) l -> length l = WIDE ->
  from_ne_wide be (ord be l) = Ok (ord be (from_wide l)).
Proof.
  intros be l D HL. unfold from_ne_wide.
  rewrite (from_ne_words_ok HV _ _ (wide_len HV)) by (rewrite ?w8_wide, ?(WIDE_eq HV); auto).
  rewrite w8_wide. do 2 f_equal. pose proof (HW1 HV).
  rewrite <- (lenc_lval (2 * W) l) at 2 by (auto; lia). rewrite (from_wide_lenc HV).
  unfold ofZ. rewrite HL, <- N_wide. reflexivity.
Qed.

Lemma join_bytes : forall be lo hi, 0 <= lo < 2 ^ W -> 0 <= hi < 2 ^ W ->
  p_from_ne_bytes be (if be then p_to_ne_bytes be limb_bytes hi ++ p_to_ne_bytes be limb_bytes lo
                      else p_to_ne_bytes be limb_bytes lo ++ p_to_ne_bytes be limb_bytes hi) = lo + 2 ^ W * hi.
Proof.
  intros be lo hi H1 H2. unfold p_from_ne_bytes, p_to_ne_bytes. rewrite !le_bytes_lenc.
  assert (E : lval 8 (lenc 8 limb_bytes lo ++ lenc 8 limb_bytes hi) = lo + 2 ^ W * hi).
  { rewrite lval_app by lia. rewrite !lval_lenc, length_lenc by lia.
    pose proof (kW HV) as K. unfold w8 in K. rewrite K. rewrite !Z.mod_small by lia. reflexivity. }
  destruct be; rewrite le_value_lval; auto. rewrite rev_app_distr, !rev_involutive. auto.
Qed.

Lemma mem_get_wide_ok : forall be x i, wf x -> mem_get_wide be (ord be x) i = get_wide x i.
Proof.
  intros be x i [HL D]. unfold mem_get_wide, get_wide. pose proof (W_nonneg HV).
  replace ((2 * limb_bytes / limb_bytes =? 2)%nat) with true
    by (destruct (limb_bytes_cases HV) as [[_ K]|[_ K]]; rewrite K; reflexivity).
  cbn [assert_ bind]. rewrite (WIDE_eq HV). destruct (Nat.ltb_spec i WIDE) as [Hi|Hi]; cbn [assert_ bind]; auto.
  pose proof N_wide. rewrite (get_ok x (2 * i)), (get_ok x (2 * i + 1)) by lia. cbn [bind].
  rewrite !get_ok by (rewrite length_ord; destruct be; lia). cbn [bind]. f_equal.
  rewrite <- (join_bytes be (nth (2 * i) x 0) (nth (2 * i + 1) x 0)) by (apply digits_nth; auto).
  destruct be; unfold ord; auto. rewrite !rev_nth by lia.
  replace (length x - S (N - 2 * (i + 1)))%nat with (2 * i + 1)%nat by lia.
  replace (length x - S (N - 2 * (i + 1) + 1))%nat with (2 * i)%nat by lia. reflexivity.
Qed.

Lemma mem_u128_ok : forall be v, fits_u 128 v ->
  mem_u128_to_limb be v = (let* l := u128_to_limb v in Ok (ord be l)).
Proof.
  intros be v Hv. unfold mem_u128_to_limb. destruct (Z.eqb_spec W 32) as [E|E].
  - rewrite (u128_to_limb_ok _ E). cbn [assert_ bind]. f_equal.
    unfold p_to_ne_bytes. rewrite le_bytes_lenc. fold (ord be (lenc 8 16 v)).
    rewrite from_bytes_ok.
    + rewrite E. change (w8 4) with 32. do 2 f_equal. rewrite lval_lenc by lia. apply Z.mod_small. exact Hv.
    + apply digits_lenc; lia.
    + apply length_lenc.
  - unfold u128_to_limb. destruct (Z.eqb_spec W 32); [tauto|]. reflexivity.
Qed.

Lemma raw_fill : forall (g : nat -> Z) (body : nat -> list Z -> res (list Z)),
  (forall i r, (i < N)%nat -> length r = N -> body i r = Ok (upd r i (g i))) ->
  for_range 0 N body (repeat 0 N) = Ok (map g (seq 0 N)).
Proof.
  intros g body HB. destruct (fill_loop N g body (repeat 0 N)) as (r & E & HLr & HN); auto using repeat_length.
  rewrite E. f_equal. apply list_ext.
  - rewrite map_length, seq_length; auto.
  - intros i Hi. rewrite HN by lia. rewrite (nth_indep _ 0 (g 0%nat)) by (rewrite map_length, seq_length; lia).
    rewrite map_nth, seq_nth by lia. reflexivity.
Qed.
Lemma map_seq_rev : forall (g : nat -> Z) n, rev (map g (seq 0 n)) = map (fun i => g (n - 1 - i)%nat) (seq 0 n).
Proof.
  intros g n. apply list_ext.
  - rewrite rev_length, !map_length. auto.
  - rewrite rev_length, map_length, seq_length. intros i Hi. rewrite rev_nth by (rewrite map_length, seq_length; lia).
    rewrite map_length, seq_length.
    rewrite (nth_indep (map g _) 0 (g 0%nat)) by (rewrite map_length, seq_length; lia).
    rewrite (nth_indep (map (fun i => g (n - 1 - i)%nat) _) 0 ((fun i => g (n - 1 - i)%nat) 0%nat)) by (rewrite map_length, seq_length; lia).
    rewrite (map_nth (fun i => g (n - 1 - i)%nat)). rewrite map_nth. rewrite !seq_nth by lia. f_equal. lia.
Qed.
Lemma bitwise_raw : forall op x y, length x = N -> length y = N ->
  bitwise op x y = Ok (map (fun i => op (nth i x 0) (nth i y 0)) (seq 0 N)).
Proof.
  intros op x y Hx Hy. unfold bitwise. rewrite (raw_fill (fun i => op (nth i x 0) (nth i y 0))).
  - cbn [bind]. apply mk_ok; auto.
  - intros i r Hi HL. rewrite !get_ok by lia. cbn [bind]. apply set_ok. lia.
Qed.
Lemma not_raw : forall x, length x = N ->
  not_const x = Ok (map (fun i => p_not W (nth i x 0)) (seq 0 N)).
Proof.
  intros x Hx. unfold not_const. rewrite (raw_fill (fun i => p_not W (nth i x 0))).
  - cbn [bind]. apply mk_ok; auto.
  - intros i r Hi HL. rewrite !get_ok by lia. cbn [bind]. apply set_ok. lia.
Qed.
Lemma mem_bitwise : forall be op x y, wf x -> wf y ->
  bitwise op (ord be x) (ord be y) = (let* r := bitwise op x y in Ok (ord be r)).
Proof.
  intros be op x y [Hx _] [Hy _]. rewrite !bitwise_raw by (rewrite ?length_ord; auto). cbn [bind]. f_equal.
  destruct be; unfold ord; auto. rewrite map_seq_rev. apply map_ext_in. intros i Hi. apply in_seq in Hi.
  rewrite !rev_nth by lia. replace (length x - S i)%nat with (N - 1 - i)%nat by lia. try replace (length y - S i)%nat with (N - 1 - i)%nat by lia. reflexivity.
Qed.
Lemma mem_not : forall be x, wf x -> not_const (ord be x) = (let* r := not_const x in Ok (ord be r)).
Proof.
  intros be x [Hx _]. rewrite !not_raw by (rewrite ?length_ord; auto). cbn [bind]. f_equal.
  destruct be; unfold ord; auto. rewrite map_seq_rev. apply map_ext_in. intros i Hi. apply in_seq in Hi.
  rewrite !rev_nth by lia. replace (length x - S i)%nat with (N - 1 - i)%nat by lia. try replace (length y - S i)%nat with (N - 1 - i)%nat by lia. reflexivity.
Qed.

Definition sum (l : list Z) : Z := fold_right Z.add 0 l.
Lemma sum_app : forall a b, sum (a ++ b) = sum a + sum b.
Proof. unfold sum. induction a; intros; cbn [app fold_right]; auto. rewrite IHa. ring. Qed.
Lemma sum_rev : forall a, sum (rev a) = sum a.
Proof. induction a; cbn [rev]; auto. rewrite sum_app, IHa. unfold sum. cbn [fold_right]. ring. Qed.
Lemma ones_sum : forall x k, wf x -> (k <= N)%nat ->
  ones (uval x) (Z.to_nat W * k) = sum (map (p_count_ones W) (firstn k x)).
Proof.
  intros x k Hx. induction k; intros Hk.
  - rewrite Nat.mul_0_r. reflexivity.
  - rewrite (ones_limb HV) by (auto; lia). rewrite IHk by lia. destruct Hx as [HL _].
    rewrite (firstn_S_nth _ x k 0) by lia. rewrite map_app, sum_app. unfold sum. cbn [map fold_right]. ring.
Qed.
Lemma mem_count_ones : forall be x, wf x -> count_ones (ord be x) = count_ones x.
Proof.
  intros be x Hx. rewrite !(count_ones_ok HV) by (auto; apply rev_wf; auto). f_equal.
  rewrite <- (to_nat_BITS HV). rewrite !ones_sum by (auto; apply rev_wf; auto).
  destruct Hx as [HL _]. rewrite !firstn_all2 by (rewrite ?length_ord; lia).
  destruct be; unfold ord; auto. rewrite map_rev, sum_rev. reflexivity.
Qed.
End L.
