(** * Facts about the memory layout *)

Require Import ZArith List Bool Lia.
From Verif Require Import Prim Spec Facts MShift MCore PCore MScalar PScalar MLayout.
Import ListNotations.
Local Open Scope Z_scope.

(** The array in memory of the elements [l], least significant first. *)
Definition ord (be : bool) (l : list Z) : list Z := if be then rev l else l.

Lemma ord_ord : forall be l, ord be (ord be l) = l.
Proof. intros [|] l; unfold ord; auto using rev_involutive. Qed.
Lemma length_ord : forall be l, length (ord be l) = length l.
Proof. intros [|] l; unfold ord; auto using rev_length. Qed.
Lemma digits_rev : forall w l, digits w l -> digits w (rev l).
Proof. intros w l H. unfold digits in *. rewrite Forall_forall in *. intros x Hx. apply H. apply in_rev; auto. Qed.
Lemma digits_ord : forall be w l, digits w l -> digits w (ord be l).
Proof. intros [|] w l; unfold ord; auto using digits_rev. Qed.
Lemma ord_swap : forall be l, ord (negb be) l = rev (ord be l).
Proof. intros [|] l; unfold ord; cbn; auto. rewrite rev_involutive; auto. Qed.

(** ** Re-grouping digits *)

Section Chunks.
Variable k : nat.
Lemma chunks_concat : forall ls, Forall (fun l => length l = k) ls -> chunks (length ls) k (concat ls) = ls.
Proof.
  induction ls as [|l ls IH]; intros H; cbn [chunks length concat]; auto.
  apply Forall_inv in H as H2. apply Forall_inv_tail in H. f_equal.
  - rewrite firstn_app, <- H2, Nat.sub_diag. cbn. rewrite firstn_all, app_nil_r. reflexivity.
  - rewrite skipn_app, <- H2, Nat.sub_diag, skipn_all. cbn [skipn app]. rewrite H2. auto.
Qed.

Lemma concat_chunks : forall n l, length l = (n * k)%nat -> concat (chunks n k l) = l.
Proof.
  induction n; intros l H; cbn [chunks concat].
  - cbn in H. destruct l; auto; discriminate.
  - rewrite IHn. + apply firstn_skipn. + rewrite skipn_length. lia.
Qed.
Lemma length_chunks : forall n l, length (chunks n k l) = n.
Proof. induction n; intros; cbn; auto. Qed.
Lemma chunks_len : forall n l, length l = (n * k)%nat -> Forall (fun l => length l = k) (chunks n k l).
Proof.
  induction n; intros l H; cbn [chunks]; constructor.
  - apply firstn_length_le. lia.
  - apply IHn. rewrite skipn_length. lia.
Qed.

Lemma rev_concat : forall ls : list (list Z), rev (concat ls) = concat (map (@rev Z) (rev ls)).
Proof.
  induction ls as [|l ls IH]; cbn; auto. rewrite rev_app_distr, map_app, concat_app, IH. cbn.
  rewrite app_nil_r. reflexivity.
Qed.

Lemma chunks_rev : forall n l, length l = (n * k)%nat ->
  chunks n k (rev l) = map (@rev Z) (rev (chunks n k l)).
Proof.
  intros n l HL. rewrite <- (concat_chunks n l HL) at 1. rewrite rev_concat.
  rewrite <- (length_chunks n l) at 1. rewrite <- (rev_length (chunks n k l)).
  rewrite <- (map_length (@rev Z)). apply chunks_concat.
  rewrite Forall_forall. intros x Hx. apply in_map_iff in Hx. destruct Hx as (y & E & Hy). subst x.
  rewrite rev_length. pose proof (chunks_len n l HL) as F. rewrite Forall_forall in F. apply F.
  apply in_rev; auto.
Qed.
End Chunks.

Section Group.
Variables (b : Z) (k : nat).
Hypothesis Hb : 0 <= b.
Let w := b * Z.of_nat k.
Lemma Hw0 : 0 <= w. Proof. unfold w. nia. Qed.

Lemma lenc_concat : forall l, digits w l ->
  concat (map (lenc b k) l) = lenc b (k * length l) (lval w l).
Proof.
  induction l as [|x l IH]; intros H; cbn [map concat length].
  - rewrite Nat.mul_0_r. reflexivity.
  - apply digits_inv in H. destruct H as [Hx Hl]. rewrite IH by auto.
    rewrite Nat.mul_succ_r, Nat.add_comm. rewrite lenc_app by auto. fold w. cbn [lval].
    pose proof (pow2_pos w Hw0). f_equal.
    + apply lenc_eq_mod; auto. fold w. rewrite Z.mul_comm, Z.mod_add by lia. reflexivity.
    + f_equal. rewrite Z.mul_comm, Z.div_add, Z.div_small by lia. ring.
Qed.

Lemma lval_concat : forall ls, Forall (fun l => length l = k) ls ->
  lval b (concat ls) = lval w (map (lval b) ls).
Proof.
  induction ls as [|l ls IH]; intros H; cbn [map concat lval]; auto.
  apply Forall_inv in H as H2. apply Forall_inv_tail in H. rewrite lval_app by auto. rewrite IH by auto. unfold w. rewrite H2. ring.
Qed.

Lemma digits_map_lval : forall ls, Forall (fun l => length l = k) ls -> digits b (concat ls) ->
  digits w (map (lval b) ls).
Proof.
  induction ls as [|l ls IH]; intros H D; cbn [map concat] in *. { constructor. }
  apply Forall_inv in H as H2. apply Forall_inv_tail in H. apply digits_app in D. destruct D as [D1 D2]. apply digits_cons; [|apply IH; auto].
  unfold w. rewrite <- H2. apply lval_range; auto.
Qed.

(** Joining [k] digits at a time gives the digits in the larger base. *)
Lemma lval_chunks : forall n l, digits b l -> length l = (n * k)%nat ->
  map (lval b) (chunks n k l) = lenc w n (lval b l).
Proof.
  intros n l D HL. pose proof (chunks_len k n l HL). pose proof (concat_chunks k n l HL).
  apply lenc_unique.
  - apply Hw0.
  - apply digits_map_lval; auto. rewrite H0; auto.
  - rewrite map_length. apply length_chunks.
  - rewrite <- lval_concat by auto. rewrite H0. reflexivity.
Qed.

End Group.

Lemma nth_lenc : forall b n v i, 0 <= b -> (i < n)%nat ->
  nth i (lenc b n v) 0 = v / 2 ^ (b * Z.of_nat i) mod 2 ^ b.
Proof.
  induction n; intros v i Hb Hi; [lia|]. destruct i; cbn [lenc nth].
  - rewrite Z.mul_0_r, Z.pow_0_r, Z.div_1_r. reflexivity.
  - rewrite IHn by lia. rewrite pow2_S by auto.
    pose proof (pow2_pos b Hb). rewrite Z.div_div; auto; [lia|]. apply pow2_pos; nia.
Qed.

(** ** Bytes of a primitive *)
Lemma le_bytes_lenc : forall k v, le_bytes k v = lenc 8 k v.
Proof. induction k; intros; cbn [le_bytes lenc]; auto. change (2 ^ 8) with 256. rewrite IHk; auto. Qed.
Lemma le_value_lval : forall l, le_value l = lval 8 l.
Proof. induction l; cbn [le_value lval]; auto. change (2 ^ 8) with 256. rewrite IHl; auto. Qed.

Definition w8 (k : nat) : Z := 8 * Z.of_nat k.

Lemma to_bytes_ok : forall be k l, digits (w8 k) l ->
  transmute_to_bytes be k (ord be l) = ord be (lenc 8 (k * length l) (lval (w8 k) l)).
Proof.
  intros be k l H. unfold transmute_to_bytes, p_to_ne_bytes. rewrite <- lenc_concat by (auto; lia).
  destruct be; unfold ord.
  - rewrite rev_concat. rewrite <- map_rev, map_map. f_equal. apply map_ext. intros. rewrite le_bytes_lenc; auto.
  - f_equal. apply map_ext. intros. apply le_bytes_lenc.
Qed.

Lemma from_bytes_ok : forall be k n l, digits 8 l -> length l = (n * k)%nat ->
  transmute_from_bytes be k n (ord be l) = ord be (lenc (w8 k) n (lval 8 l)).
Proof.
  intros be k n l D HL. unfold transmute_from_bytes, p_from_ne_bytes, w8.
  rewrite <- (lval_chunks 8 k ltac:(lia)) by auto. destruct be; unfold ord.
  - rewrite chunks_rev by auto. rewrite map_map, <- map_rev. apply map_ext. intros.
    rewrite rev_involutive. apply le_value_lval.
  - apply map_ext. intros. apply le_value_lval.
Qed.

(** ** Index helpers *)
Lemma nth_rev_Z : forall (l : list Z) i, (i < length l)%nat -> nth (length l - 1 - i) (rev l) 0 = nth i l 0.
Proof. intros. rewrite rev_nth by lia. f_equal. lia. Qed.

Lemma list_ext : forall (l1 l2 : list Z), length l1 = length l2 ->
  (forall i, (i < length l1)%nat -> nth i l1 0 = nth i l2 0) -> l1 = l2.
Proof. intros. apply (nth_ext l1 l2 0 0); auto. Qed.

Lemma rev_upd : forall (l : list Z) i v, (i < length l)%nat -> upd (rev l) (length l - 1 - i) v = rev (upd l i v).
Proof.
  intros l i v H. apply list_ext.
  - rewrite length_upd, !rev_length, length_upd. auto.
  - rewrite length_upd, rev_length. intros j Hj.
    rewrite (rev_nth _ 0) by (rewrite length_upd; lia). rewrite length_upd.
    rewrite !nth_upd by (rewrite ?rev_length; lia).
    rewrite (rev_nth l 0) by lia. replace (length l - S j)%nat with (length l - 1 - j)%nat by lia.
    destruct (Nat.eq_dec j (length l - 1 - i)) as [E|E].
    + subst. replace (length l - 1 - (length l - 1 - i))%nat with i by lia. rewrite !Nat.eqb_refl. auto.
    + destruct (Nat.eqb_spec (length l - 1 - i) j); [lia|]. destruct (Nat.eqb_spec i (length l - 1 - j)); [lia|auto].
Qed.

(** Indexing through [ne_index!] is indexing from the least significant end. *)
Lemma ne_get_ok : forall be l i, ne_get be (ord be l) i = get l i.
Proof.
  intros [|] l i; unfold ne_get, to_ne_index, ord; cbn [bind]; auto. rewrite rev_length.
  destruct (Nat.ltb_spec i (length l)).
  - cbn [bind]. rewrite !get_ok by (rewrite ?rev_length; lia). rewrite nth_rev_Z by lia. reflexivity.
  - cbn [bind]. symmetry. apply get_panic. lia.
Qed.
Lemma set_panic : forall (l : list Z) i v, (length l <= i)%nat -> set l i v = Panic.
Proof. intros. unfold set. destruct (Nat.ltb_spec i (length l)); auto; lia. Qed.
Lemma ne_set_ok : forall be l i v, ne_set be (ord be l) i v = (let* r := set l i v in Ok (ord be r)).
Proof.
  intros [|] l i v; unfold ne_set, to_ne_index, ord; cbn [bind].
  - rewrite rev_length. destruct (Nat.ltb_spec i (length l)).
    + cbn [bind]. rewrite !set_ok by (rewrite ?rev_length; lia). cbn [bind]. rewrite rev_upd by lia. reflexivity.
    + cbn [bind]. rewrite set_panic by lia. reflexivity.
  - destruct (set l i v); reflexivity.
Qed.

Lemma for_fill : forall (f : Z -> Z) (l s : list Z) off, length s = length l ->
  (forall i, (i < length l)%nat -> (length l - i - 1)%nat = off i) ->
  for_range 0 (length l) (fun i r => let* v := get l (off i) in set r i (f v)) s = Ok (map f (rev l)).
Proof.
  intros f l s off HL Ho.
  destruct (for_range_inv _ (fun i r => length r = length l /\
     forall j, (j < i)%nat -> nth j r 0 = f (nth (length l - j - 1) l 0))
     (fun i r => let* v := get l (off i) in set r i (f v)) 0 (length l) s) as (r & E & HLr & Hr).
  - lia.
  - intros i r [_ Hi] [HLr Hr]. rewrite <- Ho by lia. rewrite get_ok by lia. cbn [bind].
    rewrite set_ok by lia. eexists. split; [reflexivity|]. split.
    + rewrite length_upd; auto.
    + intros j Hj. rewrite nth_upd by lia. destruct (Nat.eqb_spec i j); [subst; auto|]. apply Hr. lia.
  - split; auto. intros; lia.
  - rewrite E. f_equal. apply list_ext.
    + rewrite map_length, rev_length; auto.
    + intros j Hj. rewrite Hr by lia. rewrite (nth_indep (map f (rev l)) 0 (f 0)) by (rewrite map_length, rev_length; lia).
      rewrite map_nth. f_equal. rewrite rev_nth by lia. f_equal. lia.
Qed.

Lemma swap_array_ok : forall l, swap_array l = Ok (rev l).
Proof.
  intros l. unfold swap_array. rewrite (for_fill (fun v => v) l l (fun i => (length l - i - 1)%nat)); auto.
  rewrite map_id. reflexivity.
Qed.

(** ** The functions of endian.rs *)
Section L.
Context {c : Cfg}.
Hypothesis HV : Valid.

Definition wfm (be : bool) (m : list Z) : Prop := wf (ord be m).
Definition mval (be : bool) (m : list Z) : Z := uval (ord be m).

Lemma kW : w8 limb_bytes = W.
Proof. unfold w8, limb_bytes. destruct (W_cases HV) as [E|E]; rewrite E; reflexivity. Qed.
Lemma kN : BYTES = (limb_bytes * N)%nat.
Proof.
  unfold BYTES, limb_bytes. pose proof kW as E. unfold w8, limb_bytes in E. rewrite <- E at 1.
  replace (8 * Z.of_nat (Z.to_nat (W / 8)) * Z.of_nat N) with (Z.of_nat (Z.to_nat (W / 8) * N) * 8) by lia.
  rewrite Z.div_mul by lia. lia.
Qed.
Lemma B8 : 8 * Z.of_nat BYTES = BITS.
Proof. rewrite kN. rewrite <- BITS_alt. pose proof kW as E. unfold w8 in E. rewrite <- E at 1. lia. Qed.

Lemma rev_wf : forall be x, wf x -> wf (ord be x).
Proof. intros be x [H1 H2]. split. { rewrite length_ord; auto. } apply digits_ord; auto. Qed.

Section Reverse.
(** Reversing every limb in base [2^b] and the order of the limbs. *)
Variables (b : Z) (k : nat).
Hypotheses (Hb : 0 <= b) (Hk : b * Z.of_nat k = W).
Definition revd (v : Z) : Z := lval b (rev (lenc b k v)).
Lemma revd_enc : forall v, lenc b k (revd v) = rev (lenc b k v).
Proof.
  intros. unfold revd. symmetry. apply lenc_unique; auto.
  - apply digits_rev, digits_lenc; auto.
  - rewrite rev_length. apply length_lenc.
Qed.
Lemma revd_range : forall v, 0 <= revd v < 2 ^ W.
Proof.
  intros. unfold revd. rewrite <- Hk.
  pose proof (lval_range b (rev (lenc b k v)) Hb (digits_rev _ _ (digits_lenc b k v Hb))) as H.
  rewrite rev_length, length_lenc in H. exact H.
Qed.
Lemma revd_wf : forall x, wf x -> wf (map revd (rev x)).
Proof.
  intros x [HL D]. split. { rewrite map_length, rev_length; auto. }
  unfold digits. rewrite Forall_forall. intros y Hy. apply in_map_iff in Hy. destruct Hy as (z & E & _).
  subst. apply revd_range.
Qed.
Lemma revd_ok : forall x, wf x ->
  lenc b (k * N) (uval (map revd (rev x))) = rev (lenc b (k * N) (uval x)).
Proof.
  intros x Hx. pose proof (revd_wf x Hx) as [HLr Dr]. destruct Hx as [HL D]. unfold uval.
  replace (lenc b (k * N) (lval W (map revd (rev x)))) with
    (lenc b (k * length (map revd (rev x))) (lval (b * Z.of_nat k) (map revd (rev x)))) by (rewrite HLr, Hk; auto).
  rewrite <- lenc_concat by (auto; rewrite Hk; auto).
  replace (lenc b (k * N) (lval W x)) with (lenc b (k * length x) (lval (b * Z.of_nat k) x)) by (rewrite HL, Hk; auto).
  rewrite <- lenc_concat by (auto; rewrite Hk; auto).
  rewrite rev_concat, <- map_rev, !map_map. f_equal. apply map_ext. intros. apply revd_enc.
Qed.
End Reverse.

Lemma map_ord : forall be (f : Z -> Z) l, map f (ord be l) = ord be (map f l).
Proof. intros [|] f l; unfold ord; auto using map_rev. Qed.
Lemma rev_ord : forall be l, rev (ord be l) = ord be (rev l).
Proof. intros [|] l; unfold ord; auto. Qed.

Lemma mem_swap_ok : forall be x, wf x ->
  mem_swap_bytes (ord be x) = Ok (ord be (map (revd 8 limb_bytes) (rev x))).
Proof.
  intros be x [HL D]. unfold mem_swap_bytes.
  rewrite <- HL, <- (length_ord be x).
  rewrite (for_fill (p_swap_bytes limb_bytes) (ord be x) (repeat 0 (length (ord be x)))
     (fun i => (length (ord be x) - 1 - i)%nat)).
  - rewrite rev_ord, map_ord. do 2 f_equal. apply map_ext. intros. unfold p_swap_bytes, revd.
    rewrite le_value_lval, le_bytes_lenc. reflexivity.
  - apply repeat_length.
  - intros. lia.
Qed.
Lemma p_reverse_bits_ok : forall n v, p_reverse_bits n v = lval 1 (rev (lenc 1 n v)).
Proof.
  induction n; intros v; cbn [p_reverse_bits lenc rev]; auto.
  rewrite lval_app by lia. rewrite rev_length, length_lenc. rewrite <- IHn. cbn [lval].
  rewrite Z.mul_1_l. change (2 ^ 1) with 2. ring.
Qed.
Lemma mem_reverse_ok : forall be x, wf x ->
  mem_reverse_bits (ord be x) = Ok (ord be (map (revd 1 (Z.to_nat W)) (rev x))).
Proof.
  intros be x [HL D]. unfold mem_reverse_bits.
  rewrite <- HL, <- (length_ord be x).
  rewrite (for_fill (p_reverse_bits (Z.to_nat W)) (ord be x) (repeat 0 (length (ord be x)))
     (fun i => (length (ord be x) - 1 - i)%nat)).
  - rewrite rev_ord, map_ord. do 2 f_equal. apply map_ext. intros. apply p_reverse_bits_ok.
  - apply repeat_length.
  - intros. lia.
Qed.

(** As an operation on values. *)
Definition revz (b : Z) (n : nat) (v : Z) : Z := lval b (rev (lenc b n v)).
Lemma revz_range : forall b n v, 0 <= b -> 0 <= revz b n v < 2 ^ (b * Z.of_nat n).
Proof.
  intros b n v Hb. unfold revz.
  pose proof (lval_range b (rev (lenc b n v)) Hb (digits_rev _ _ (digits_lenc b n v Hb))) as H.
  rewrite rev_length, length_lenc in H. exact H.
Qed.
Lemma lenc_revz : forall b n v, 0 <= b -> lenc b n (revz b n v) = rev (lenc b n v).
Proof.
  intros. unfold revz. symmetry. apply lenc_unique; auto.
  - apply digits_rev, digits_lenc; auto.
  - rewrite rev_length. apply length_lenc.
Qed.
Lemma revz_revz : forall b n v, 0 <= b -> revz b n (revz b n v) = v mod 2 ^ (b * Z.of_nat n).
Proof.
  intros. unfold revz at 1. rewrite lenc_revz by auto. rewrite rev_involutive. apply lval_lenc; auto.
Qed.
Lemma revz_digit : forall b n v i, 0 <= b -> (i < n)%nat ->
  revz b n v / 2 ^ (b * Z.of_nat i) mod 2 ^ b = v / 2 ^ (b * Z.of_nat (n - 1 - i)) mod 2 ^ b.
Proof.
  intros. rewrite <- (nth_lenc b n) by auto. rewrite lenc_revz by auto.
  rewrite rev_nth by (rewrite length_lenc; auto). rewrite length_lenc.
  rewrite nth_lenc by (auto; lia). do 4 f_equal. lia.
Qed.

Lemma kW1 : 1 * Z.of_nat (Z.to_nat W) = W.
Proof. pose proof (W_nonneg HV). lia. Qed.
Lemma bitsN : (Z.to_nat W * N)%nat = Z.to_nat BITS.
Proof. rewrite <- BITS_alt. pose proof (W_nonneg HV). lia. Qed.

Lemma revd_ofZ : forall b k x, 0 <= b -> b * Z.of_nat k = W -> wf x ->
  map (revd b k) (rev x) = ofZ (revz b (k * N) (uval x)).
Proof.
  intros b k x Hb Hk Hx. rewrite <- (ofZ_uval HV (map (revd b k) (rev x))) by (apply revd_wf; auto).
  pose proof (revd_ok b k Hb Hk x Hx) as E. f_equal.
  apply (f_equal (lval b)) in E. rewrite lval_lenc in E by auto.
  rewrite Z.mod_small in E; auto.
  pose proof (uval_range HV _ (revd_wf b k Hb Hk x Hx)).
  replace (b * Z.of_nat (k * N)) with BITS; auto. rewrite <- BITS_alt. rewrite <- Hk at 1. lia.
Qed.
Definition swapz (v : Z) : Z := revz 8 BYTES v.
Definition revbz (v : Z) : Z := revz 1 (Z.to_nat BITS) v.
Lemma swap_bytes_ok : forall be x, wf x -> mem_swap_bytes (ord be x) = Ok (ord be (ofZ (swapz (uval x)))).
Proof.
  intros. rewrite mem_swap_ok by auto. rewrite revd_ofZ by (auto; try lia; apply kW). rewrite <- kN. reflexivity.
Qed.
Lemma reverse_bits_ok : forall be x, wf x -> mem_reverse_bits (ord be x) = Ok (ord be (ofZ (revbz (uval x)))).
Proof.
  intros. rewrite mem_reverse_ok by auto. rewrite revd_ofZ by (auto; try lia; apply kW1). rewrite bitsN. reflexivity.
Qed.

(** *** Arrays.  [w] is the element width and [n] the number of elements. *)
Lemma from_ne_limbs_ok : forall l, from_ne_limbs l = Ok l.
Proof.
  intros. unfold from_ne_limbs. rewrite BITS_alt. destruct HV as (_ & (k & _ & E) & _). rewrite E.
  rewrite Z.mul_comm, Z.mod_mul by lia. reflexivity.
Qed.
Lemma to_ne_bytes_ok : forall be x, wf x -> to_ne_bytes be (ord be x) = Ok (ord be (lenc 8 BYTES (uval x))).
Proof.
  intros be x [HL D]. unfold to_ne_bytes. rewrite to_bytes_ok by (rewrite kW; auto). rewrite kW, HL, kN. reflexivity.
Qed.
Lemma from_ne_bytes_ok : forall be l, digits 8 l -> length l = BYTES ->
  from_ne_bytes be (ord be l) = Ok (ord be (ofZ (lval 8 l))).
Proof.
  intros be l D HL. unfold from_ne_bytes. rewrite from_bytes_ok by (auto; rewrite HL, kN; lia).
  rewrite kW. apply from_ne_limbs_ok.
Qed.
Lemma lenc8_swap : forall v, lenc 8 BYTES (uval (ofZ (swapz v))) = rev (lenc 8 BYTES v).
Proof.
  intros v. rewrite (uval_ofZ HV). unfold swapz. rewrite <- B8.
  rewrite Z.mod_small by (apply revz_range; lia). apply lenc_revz; lia.
Qed.
Lemma to_end : forall (be' be : bool) x, wf x ->
  (let* y := (if Bool.eqb be be' then Ok (ord be x) else mem_swap_bytes (ord be x)) in to_ne_bytes be y) =
    Ok (ord be' (lenc 8 BYTES (uval x))).
Proof.
  intros be' be x Hx. destruct (Bool.eqb be be') eqn:E.
  - apply eqb_prop in E. subst. cbn [bind]. apply to_ne_bytes_ok; auto.
  - rewrite swap_bytes_ok by auto. cbn [bind]. rewrite to_ne_bytes_ok by apply (wf_ofZ HV).
    rewrite lenc8_swap. destruct be, be'; cbn in E; try discriminate; unfold ord; rewrite ?rev_involutive; auto.
Qed.
Lemma to_be_bytes_ok : forall be x, wf x -> to_be_bytes be (ord be x) = Ok (rev (lenc 8 BYTES (uval x))).
Proof. intros be x Hx. pose proof (to_end true be x Hx) as H. cbn [ord] in H. rewrite <- H. clear H. unfold to_be_bytes, to_be. destruct be; reflexivity. Qed.
Lemma to_le_bytes_ok : forall be x, wf x -> to_le_bytes be (ord be x) = Ok (lenc 8 BYTES (uval x)).
Proof. intros be x Hx. pose proof (to_end false be x Hx) as H. cbn [ord] in H. rewrite <- H. clear H. unfold to_le_bytes, to_le. destruct be; reflexivity. Qed.

Lemma swapz_lval : forall l, digits 8 l -> length l = BYTES -> swapz (lval 8 (rev l)) = lval 8 l.
Proof.
  intros l D HL. unfold swapz, revz. rewrite <- HL, <- (rev_length l) at 1. rewrite lenc_lval; auto using digits_rev; try lia.
  rewrite rev_involutive. reflexivity.
Qed.
Lemma lval8_range : forall l, digits 8 l -> length l = BYTES -> 0 <= lval 8 l < 2 ^ BITS.
Proof. intros l D HL. rewrite <- B8, <- HL. apply lval_range; auto; lia. Qed.

Lemma from_end : forall (be' be : bool) l, digits 8 l -> length l = BYTES ->
  (let* y := from_ne_bytes be (ord be' l) in if Bool.eqb be be' then Ok y else mem_swap_bytes y) =
    Ok (ord be (ofZ (lval 8 l))).
Proof.
  intros be' be l D HL. destruct (Bool.eqb be be') eqn:E.
  - apply eqb_prop in E. subst. rewrite from_ne_bytes_ok by auto. reflexivity.
  - replace (ord be' l) with (ord be (rev l)) by
      (destruct be, be'; cbn in E; try discriminate; unfold ord; rewrite ?rev_involutive; auto).
    rewrite from_ne_bytes_ok by (auto using digits_rev; rewrite rev_length; auto). cbn [bind].
    rewrite swap_bytes_ok by apply (wf_ofZ HV). rewrite (uval_ofZ HV).
    rewrite Z.mod_small. + rewrite swapz_lval by auto. reflexivity.
    + apply lval8_range; auto using digits_rev. rewrite rev_length; auto.
Qed.
Lemma from_be_bytes_ok : forall be l, digits 8 l -> length l = BYTES ->
  from_be_bytes be (rev l) = Ok (ord be (ofZ (lval 8 l))).
Proof. intros be l D HL. rewrite <- (from_end true be l D HL). unfold from_be_bytes, to_be. destruct be; reflexivity. Qed.
Lemma from_le_bytes_ok : forall be l, digits 8 l -> length l = BYTES ->
  from_le_bytes be l = Ok (ord be (ofZ (lval 8 l))).
Proof. intros be l D HL. rewrite <- (from_end false be l D HL). unfold from_le_bytes, to_le. destruct be; reflexivity. Qed.

Lemma to_be_limbs_ok : forall be x, to_be_limbs be (ord be x) = Ok (rev x).
Proof. intros [|] x; unfold to_be_limbs, to_ne_limbs, ord; cbn [bind negb]; auto using swap_array_ok. Qed.
Lemma to_le_limbs_ok : forall be x, to_le_limbs be (ord be x) = Ok x.
Proof.
  intros [|] x; unfold to_le_limbs, to_ne_limbs, ord; cbn [bind negb]; auto.
  rewrite swap_array_ok, rev_involutive. auto.
Qed.
Lemma from_be_limbs_ok : forall be x, from_be_limbs be (rev x) = Ok (ord be x).
Proof.
  intros [|] x; unfold from_be_limbs, ord; rewrite ?swap_array_ok; cbn [bind];
    rewrite from_ne_limbs_ok, ?rev_involutive; auto.
Qed.
Lemma from_le_limbs_ok : forall be x, from_le_limbs be x = Ok (ord be x).
Proof.
  intros [|] x; unfold from_le_limbs, ord; rewrite ?swap_array_ok; cbn [bind];
    rewrite from_ne_limbs_ok; auto.
Qed.

Section WordsL.
Variables (k n : nat).
Hypothesis Hkn : BYTES = (n * k)%nat.
Lemma to_ne_words_ok : forall be x, wf x ->
  to_ne_words be k n (ord be x) = Ok (ord be (lenc (w8 k) n (uval x))).
Proof.
  intros be x Hx. unfold to_ne_words. rewrite to_ne_bytes_ok by auto. cbn [bind].
  rewrite from_bytes_ok.
  - rewrite lval_lenc by lia. rewrite B8. rewrite Z.mod_small by (apply uval_range; auto). reflexivity.
  - apply digits_lenc; lia.
  - rewrite length_lenc; auto.
Qed.
Lemma to_be_words_ok : forall be x, wf x -> to_be_words be k n (ord be x) = Ok (rev (lenc (w8 k) n (uval x))).
Proof.
  intros be x Hx. unfold to_be_words. rewrite to_ne_words_ok by auto. cbn [bind].
  destruct be; unfold ord; cbn [negb]; auto using swap_array_ok.
Qed.
Lemma to_le_words_ok : forall be x, wf x -> to_le_words be k n (ord be x) = Ok (lenc (w8 k) n (uval x)).
Proof.
  intros be x Hx. unfold to_le_words. rewrite to_ne_words_ok by auto. cbn [bind].
  destruct be; unfold ord; cbn [negb]; auto. rewrite swap_array_ok, rev_involutive. auto.
Qed.
Lemma from_ne_words_ok : forall be l, digits (w8 k) l -> length l = n ->
  from_ne_words be k (ord be l) = Ok (ord be (ofZ (lval (w8 k) l))).
Proof.
  intros be l D HL. unfold from_ne_words. rewrite to_bytes_ok by auto. rewrite from_ne_bytes_ok.
  - rewrite lval_lenc by lia. do 2 f_equal. apply (ofZ_eq_mod HV).
    replace (8 * Z.of_nat (k * length l)) with BITS by (rewrite <- B8, Hkn, HL; lia).
    rewrite Z.mod_mod; auto. pose proof (pB HV). lia.
  - apply digits_lenc; lia.
  - rewrite length_lenc, HL, Hkn. lia.
Qed.
Lemma from_be_words_ok : forall be l, digits (w8 k) l -> length l = n ->
  from_be_words be k (rev l) = Ok (ord be (ofZ (lval (w8 k) l))).
Proof.
  intros be l D HL. rewrite <- from_ne_words_ok by auto.
  destruct be; unfold from_be_words, ord; auto. rewrite swap_array_ok, rev_involutive. reflexivity.
Qed.
Lemma from_le_words_ok : forall be l, digits (w8 k) l -> length l = n ->
  from_le_words be k l = Ok (ord be (ofZ (lval (w8 k) l))).
Proof.
  intros be l D HL. rewrite <- from_ne_words_ok by auto.
  destruct be; unfold from_le_words, ord; auto. rewrite swap_array_ok. reflexivity.
Qed.
End WordsL.

(** *** The logical readings used by the other model files *)
Lemma limb_bytes_cases : (W = 32 /\ limb_bytes = 4%nat) \/ (W = 64 /\ limb_bytes = 8%nat).
Proof. unfold limb_bytes. destruct (W_cases HV) as [E|E]; rewrite E; [left|right]; auto. Qed.
Lemma wide_len : BYTES = (WIDE_LEN * (2 * limb_bytes))%nat.
Proof.
  unfold WIDE_LEN. destruct (N_even HV) as (j & _ & E). rewrite kN, E.
  destruct limb_bytes_cases as [[_ K]|[_ K]]; rewrite K.
  - replace (4 * (2 * j))%nat with (j * (2 * 4))%nat by lia. rewrite Nat.div_mul by lia. lia.
  - replace (8 * (2 * j))%nat with (j * (2 * 8))%nat by lia. rewrite Nat.div_mul by lia. lia.
Qed.
Lemma u32_len : BYTES = (U32_LEN * 4)%nat.
Proof.
  unfold U32_LEN. rewrite kN. destruct limb_bytes_cases as [[_ K]|[_ K]]; rewrite K.
  - rewrite Nat.mul_comm, Nat.div_mul by lia. lia.
  - replace (8 * N)%nat with (2 * N * 4)%nat by lia. rewrite Nat.div_mul by lia. lia.
Qed.
Lemma u64_len : BYTES = (U64_LEN * 8)%nat.
Proof.
  unfold U64_LEN. rewrite kN. destruct (N_even HV) as (j & _ & E).
  destruct limb_bytes_cases as [[_ K]|[_ K]]; rewrite K.
  - replace (4 * N)%nat with (j * 8)%nat by lia. rewrite Nat.div_mul by lia. lia.
  - rewrite Nat.mul_comm, Nat.div_mul by lia. lia.
Qed.
Lemma WIDE_eq : WIDE_LEN = WIDE.
Proof.
  unfold WIDE. pose proof wide_len as H. rewrite kN in H. destruct (N_even HV) as (j & _ & E).
  rewrite E, Nat.mul_comm, Nat.div_mul by lia.
  destruct limb_bytes_cases as [[_ K]|[_ K]]; rewrite K in H; lia.
Qed.
End L.
