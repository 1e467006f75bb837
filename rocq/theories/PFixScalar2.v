(** * Proofs: scalar operands and parsing with the corrections (MFix2.v) *)

Require Import ZArith List Bool Lia.
From Verif Require Import Prim Spec Facts MAdd PAdd PAddS MMul PMul PMulS MShift MCore PCore PBits PWide MArith PArith PArith2 PPow MDiv DivSpec PDiv PDivFull
  MScalar PScalar TextSpec MApi MParse PParse PParse2 MFix MFix2 PFixMul PFixPow.
Import ListNotations.
Local Open Scope Z_scope.

Section P.
Context {c : Cfg}.
Hypothesis HV : Valid.
Local Notation sm := fix_smul_overflowing_full.
Local Notation u128n := fix_u128_to_limb_n.
Local Notation i128n := fix_i128_to_limb_n.
Local Notation B := (2 ^ W).
Let HW : 1 <= W <= 64 := HW1 HV.

Definition m_overflowing_full (o : sop) (x y : list Z) : res (list Z * bool) :=
  match o with SAdd => overflowing_add true x y | SSub => overflowing_sub true x y | SMul => m_overflowing_mul sm true x y end.
Lemma m_overflowing_full_ok : forall o x y, wf x -> wf y ->
  m_overflowing_full o x y = Ok (ofZ (sopz o (sval x) (sval y)), nof true (sopz o (sval x) (sval y))).
Proof.
  intros [] x y Hx Hy; cbn [m_overflowing_full sopz];
    [rewrite (overflowing_add_ok HV)|rewrite (overflowing_sub_ok HV)|rewrite (m_overflowing_mul_ok HV)]; auto.
Qed.
Lemma nof_flag : forall o sg a b, o <> SMul \/ sg = false -> oflag o sg a b = nof sg (sopz o a b).
Proof. intros [] [] a b [H|H]; try congruence; reflexivity. Qed.

Lemma m_overflowing_ulimb_ok : forall o sg x n, wf x -> fits_u W n ->
  m_overflowing_ulimb sm o sg x n = Ok (ofZ (sopz o (val sg x) n), nof sg (sopz o (val sg x) n)).
Proof.
  intros o sg x n Hx Hn. destruct sg.
  - destruct o; [exact (overflowing_ulimb_ok HV SAdd true x n Hx Hn)|exact (overflowing_ulimb_ok HV SSub true x n Hx Hn)|].
    cbn [m_overflowing_ulimb]. unfold m_smul_overflowing_ulimb. rewrite (set0_ofZ HV) by auto. cbn [bind].
    change (mk_flag (sm x (ofZ n))) with (m_overflowing_mul sm true x (ofZ n)).
    rewrite (m_overflowing_mul_ok HV) by (auto; apply (wf_ofZ HV)).
    rewrite (fits_u_val HV true W n) by (auto; lia). reflexivity.
  - change (m_overflowing_ulimb sm o false x n) with (overflowing_ulimb o false x n).
    rewrite <- nof_flag by auto. apply (overflowing_ulimb_ok HV); auto.
Qed.
Lemma m_overflowing_uwide_ok : forall o sg x n, wf x -> fits_u (2 * W) n ->
  m_overflowing_uwide sm o sg x n = Ok (ofZ (sopz o (val sg x) n), nof sg (sopz o (val sg x) n)).
Proof.
  intros o sg x n Hx Hn. destruct sg.
  - destruct o; [exact (overflowing_uwide_ok HV SAdd true x n Hx Hn)|exact (overflowing_uwide_ok HV SSub true x n Hx Hn)|].
    unfold m_overflowing_uwide, m_smul_overflowing_uwide. rewrite (uwide_ofZ HV) by auto. cbn [bind].
    change (mk_flag (sm x (ofZ n))) with (m_overflowing_mul sm true x (ofZ n)).
    rewrite (m_overflowing_mul_ok HV) by (auto; apply (wf_ofZ HV)).
    rewrite (fits_u_val HV true (2 * W) n) by (auto; lia). reflexivity.
  - change (m_overflowing_uwide sm o false x n) with (overflowing_uwide o false x n).
    rewrite <- nof_flag by auto. apply (overflowing_uwide_ok HV); auto.
Qed.
Lemma m_overflowing_ilimb_ok : forall o x n, wf x -> fits_s W n ->
  m_overflowing_ilimb sm o x n = Ok (ofZ (sopz o (sval x) n), nof true (sopz o (sval x) n)).
Proof.
  intros o x n Hx Hn. destruct o; [exact (overflowing_ilimb_ok HV SAdd x n Hx Hn)|exact (overflowing_ilimb_ok HV SSub x n Hx Hn)|].
  pose proof (N_ge4 HV). unfold m_overflowing_ilimb, m_smul_overflowing_ilimb.
  rewrite (ilimb_limbs_ok HW) by (auto; destruct Hx as (L & _); lia). rewrite lenc_ofZ by auto. cbn [bind].
  change (mk_flag (sm x (ofZ n))) with (m_overflowing_mul sm true x (ofZ n)).
  rewrite (m_overflowing_mul_ok HV) by (auto; apply (wf_ofZ HV)). cbn [val].
  rewrite (fits_s_val HV W n) by (auto; lia). reflexivity.
Qed.
Lemma m_overflowing_iwide_ok : forall o x n, wf x -> fits_s (2 * W) n ->
  m_overflowing_iwide sm o x n = Ok (ofZ (sopz o (sval x) n), nof true (sopz o (sval x) n)).
Proof.
  intros o x n Hx Hn. destruct o; [exact (overflowing_iwide_ok HV SAdd x n Hx Hn)|exact (overflowing_iwide_ok HV SSub x n Hx Hn)|].
  pose proof (N_ge4 HV). unfold m_overflowing_iwide, m_smul_overflowing_iwide.
  rewrite (iwide_limbs_ok HW) by (auto; destruct Hx as (L & _); lia). rewrite lenc_ofZ by auto. cbn [bind].
  change (mk_flag (sm x (ofZ n))) with (m_overflowing_mul sm true x (ofZ n)).
  rewrite (m_overflowing_mul_ok HV) by (auto; apply (wf_ofZ HV)). cbn [val].
  rewrite (fits_s_val HV (2 * W) n) by (auto; lia). reflexivity.
Qed.

(** ** 128-bit scalars on 32-bit limbs *)

Lemma fix_store_ok : forall n v s, W = 32 -> (5 <= n)%nat -> 0 <= v < 2 ^ 128 -> s = 0 \/ s = -1 ->
  fix_store_u128 (repeat (sign_limb s) n) v = Ok (lenc W n (v + 2 ^ 128 * s)).
Proof.
  intros n v s H32 Hn Hv Hs. unfold fix_store_u128.
  destruct n as [|[|[|[|n]]]]; try lia.
  rewrite set_ok by (rewrite repeat_length; lia). cbn [bind]. rewrite ushr_ok by lia. cbn [bind].
  rewrite set_ok by (rewrite length_upd, repeat_length; lia). cbn [bind]. rewrite ushr_ok by lia. cbn [bind].
  rewrite set_ok by (rewrite !length_upd, repeat_length; lia). cbn [bind]. rewrite ushr_ok by lia. cbn [bind].
  rewrite set_ok by (rewrite !length_upd, repeat_length; lia). f_equal. cbn [repeat upd].
  unfold ucast.
  pose proof (Z.mod_pos_bound v (2 ^ 32) ltac:(lia)) as H0. pose proof (Z.mod_pos_bound (v / 2 ^ 32) (2 ^ 32) ltac:(lia)) as H1.
  pose proof (Z.mod_pos_bound (v / 2 ^ 64) (2 ^ 32) ltac:(lia)) as H2. pose proof (Z.mod_pos_bound (v / 2 ^ 96) (2 ^ 32) ltac:(lia)) as H3.
  assert (E : v = v mod 2 ^ 32 + 2 ^ 32 * (v / 2 ^ 32 mod 2 ^ 32 + 2 ^ 32 * (v / 2 ^ 64 mod 2 ^ 32 + 2 ^ 32 * (v / 2 ^ 96 mod 2 ^ 32)))).
  { pose proof (Z.div_mod v (2 ^ 32) ltac:(lia)). pose proof (Z.div_mod (v / 2 ^ 32) (2 ^ 32) ltac:(lia)) as D1.
    pose proof (Z.div_mod (v / 2 ^ 64) (2 ^ 32) ltac:(lia)) as D2. rewrite !Z.div_div in D1, D2 by lia.
    change (2 ^ 32 * 2 ^ 32) with (2 ^ 64) in *. change (2 ^ 64 * 2 ^ 32) with (2 ^ 96) in *.
    assert (0 <= v / 2 ^ 96 < 2 ^ 32) by (split; [apply Z.div_pos|apply Z.div_lt_upper_bound]; lia).
    rewrite (Z.mod_small (v / 2 ^ 96)) by lia. lia. }
  set (a := v mod 2 ^ 32) in *. set (b := v / 2 ^ 32 mod 2 ^ 32) in *. set (d := v / 2 ^ 64 mod 2 ^ 32) in *. set (e := v / 2 ^ 96 mod 2 ^ 32) in *.
  replace (v + 2 ^ 128 * s) with (a + B * (b + B * (d + B * (e + B * s)))) by (rewrite H32; rewrite E at 1; ring).
  rewrite !lenc_cons by first [exact HV|rewrite H32; auto]. rewrite (lenc_sign HW) by auto. reflexivity.
Qed.
Lemma N5 : W = 32 -> (5 <= N)%nat.
Proof. intros. pose proof BITS_alt. pose proof (BITS_ge HV). nia. Qed.
Lemma fix_u128_ok : forall v, W = 32 -> 0 <= v < 2 ^ 128 -> u128n N v = Ok (ofZ v).
Proof.
  intros v H32 Hv. unfold u128n. pose proof (N5 H32).
  replace (W =? 32) with true by (symmetry; apply Z.eqb_eq; auto).
  replace (4 <? N)%nat with true by (symmetry; apply Nat.ltb_lt; lia). cbn [assert_ bind].
  replace 0 with (sign_limb 0) at 1 by (rewrite (sign_limb_eq HW); reflexivity).
  rewrite fix_store_ok by auto. rewrite Z.mul_0_r, Z.add_0_r. reflexivity.
Qed.
Lemma fix_i128_ok : forall v, W = 32 -> fits_s 128 v -> i128n N v = Ok (ofZ v).
Proof.
  intros v H32 Hv. unfold i128n. pose proof (N5 H32). unfold fits_s in Hv. change (128 - 1) with 127 in Hv.
  replace (W =? 32) with true by (symmetry; apply Z.eqb_eq; auto).
  replace (4 <? N)%nat with true by (symmetry; apply Nat.ltb_lt; lia). cbn [assert_ bind].
  replace (p_wrapping_sub 32 0 (b2z (v <? 0))) with (sign_limb (if v <? 0 then -1 else 0)).
  2:{ unfold sign_limb. rewrite H32. destruct (v <? 0); reflexivity. }
  rewrite fix_store_ok; auto.
  - unfold ofZ. do 2 f_equal. unfold ucast. destruct (Z.ltb_spec v 0).
    + rewrite <- (Z.mod_add v 1) by lia. rewrite Z.mod_small by lia. lia.
    + rewrite Z.mod_small by lia. lia.
  - apply Z.mod_pos_bound. lia.
  - destruct (v <? 0); auto.
Qed.
Lemma val128 : forall v, - 2 ^ 128 <= v < 2 ^ 128 -> sval (ofZ v) = v.
Proof. exact (swap_val HV). Qed.
Lemma fix_w128_ok : forall o x v, wf x -> - 2 ^ 128 <= v < 2 ^ 128 ->
  (let* l := fix_w128 o x (ofZ v) in mk l) = Ok (ofZ (sopz o (sval x) v)).
Proof.
  intros o x v Hx Hv. transitivity (wrapping_full o true x (ofZ v)); [destruct o; reflexivity|].
  rewrite (wrapping_full_ok HV) by (auto; apply (wf_ofZ HV)). cbn [val]. rewrite val128 by auto. reflexivity.
Qed.
Lemma fix_o128_ok : forall o x v, wf x -> - 2 ^ 128 <= v < 2 ^ 128 ->
  mk_flag (fix_o128 o x (ofZ v)) = Ok (ofZ (sopz o (sval x) v), nof true (sopz o (sval x) v)).
Proof.
  intros o x v Hx Hv. transitivity (m_overflowing_full o x (ofZ v)); [destruct o; reflexivity|].
  rewrite m_overflowing_full_ok by (auto; apply (wf_ofZ HV)). rewrite val128 by auto. reflexivity.
Qed.

(** ** By kind *)

Lemma m_wrapping_us_ok : forall o k sg x n, wf x -> fits_u (kbits k) n ->
  m_wrapping_us u128n fix_w128 o k sg x n = Ok (ofZ (sopz o (val sg x) n)).
Proof.
  intros o k sg x n Hx Hn. assert (D : k <> K128 \/ sg = false \/ (k = K128 /\ sg = true)) by (destruct k, sg; auto; left; discriminate).
  destruct D as [D|[->|[-> ->]]].
  - transitivity (wrapping_us o k sg x n); [destruct k; try reflexivity; congruence|].
    apply (wrapping_us_ok HV); auto. intros _ [E _]. congruence.
  - transitivity (wrapping_us o k false x n); [destruct k; reflexivity|]. apply (wrapping_us_ok HV); auto. discriminate.
  - cbn [m_wrapping_us kbits] in *. unfold m_wrapping_u128. rewrite (assertW HV). cbn [assert_ bind].
    destruct (W_cases HV) as [E|E].
    + replace (2 * W =? 128) with false by (rewrite E; reflexivity).
      rewrite fix_u128_ok by auto. cbn [bind val]. unfold fits_u in Hn. apply fix_w128_ok; auto. lia.
    + replace (2 * W =? 128) with true by (rewrite E; reflexivity).
      assert (fits_u (2 * W) n) by (rewrite E; exact Hn). rewrite ucast_fits by auto. apply (wrapping_uwide_ok HV); auto.
Qed.
Lemma m_wrapping_is_ok : forall o k x n, wf x -> fits_s (kbits k) n ->
  m_wrapping_is i128n fix_w128 o k x n = Ok (ofZ (sopz o (sval x) n)).
Proof.
  intros o k x n Hx Hn. assert (D : k <> K128 \/ k = K128) by (destruct k; auto; left; discriminate).
  destruct D as [D| ->].
  - transitivity (wrapping_is o k x n); [destruct k; try reflexivity; congruence|].
    apply (wrapping_is_ok HV); auto. intros [E _]. congruence.
  - cbn [m_wrapping_is kbits] in *. unfold m_wrapping_i128. rewrite (assertW HV). cbn [assert_ bind].
    destruct (W_cases HV) as [E|E].
    + replace (2 * W =? 128) with false by (rewrite E; reflexivity).
      rewrite fix_i128_ok by auto. cbn [bind]. unfold fits_s in Hn. change (128 - 1) with 127 in Hn. apply fix_w128_ok; auto. lia.
    + replace (2 * W =? 128) with true by (rewrite E; reflexivity).
      assert (fits_s (2 * W) n) by (rewrite E; exact Hn). rewrite scast_fits by (auto; lia). apply (wrapping_iwide_ok HV); auto.
Qed.
Lemma m_overflowing_us_ok : forall o k sg x n, wf x -> fits_u (kbits k) n ->
  m_overflowing_us sm u128n fix_o128 o k sg x n = Ok (ofZ (sopz o (val sg x) n), nof sg (sopz o (val sg x) n)).
Proof.
  intros o k sg x n Hx Hn.
  destruct k; cbn [m_overflowing_us kbits] in *.
  - apply m_overflowing_ulimb_ok; auto.
  - apply m_overflowing_uwide_ok; auto.
  - assert (fits_u W n) by (destruct (W_cases HV); apply (fits_u_mono 32); auto; lia).
    rewrite ucast_fits by auto. apply m_overflowing_ulimb_ok; auto.
  - destruct (W_cases HV) as [E|E]; rewrite E.
    + change (32 =? 64) with false. apply m_overflowing_uwide_ok; auto. rewrite E. exact Hn.
    + change (64 =? 64) with true. apply m_overflowing_ulimb_ok; auto. rewrite E. exact Hn.
  - destruct sg.
    + unfold m_overflowing_u128. rewrite (assertW HV). cbn [assert_ bind]. destruct (W_cases HV) as [E|E].
      * replace (2 * W =? 128) with false by (rewrite E; reflexivity).
        rewrite fix_u128_ok by auto. cbn [bind val]. unfold fits_u in Hn. apply fix_o128_ok; auto. lia.
      * replace (2 * W =? 128) with true by (rewrite E; reflexivity).
        assert (fits_u (2 * W) n) by (rewrite E; exact Hn). rewrite ucast_fits by auto. apply m_overflowing_uwide_ok; auto.
    + rewrite <- nof_flag by auto. transitivity (overflowing_us o K128 false x n); [reflexivity|].
      apply (overflowing_us_ok HV); auto. discriminate.
Qed.
Lemma m_overflowing_is_ok : forall o k x n, wf x -> fits_s (kbits k) n ->
  m_overflowing_is sm i128n fix_o128 o k x n = Ok (ofZ (sopz o (sval x) n), nof true (sopz o (sval x) n)).
Proof.
  intros o k x n Hx Hn.
  destruct k; cbn [m_overflowing_is kbits] in *.
  - apply m_overflowing_ilimb_ok; auto.
  - apply m_overflowing_iwide_ok; auto.
  - assert (fits_s W n) by (destruct (W_cases HV); apply (fits_s_mono 32); auto; lia).
    rewrite scast_fits by (auto; lia). apply m_overflowing_ilimb_ok; auto.
  - destruct (W_cases HV) as [E|E]; rewrite E.
    + change (32 =? 64) with false. apply m_overflowing_iwide_ok; auto. rewrite E. exact Hn.
    + change (64 =? 64) with true. apply m_overflowing_ilimb_ok; auto. rewrite E. exact Hn.
  - unfold m_overflowing_i128. rewrite (assertW HV). cbn [assert_ bind]. destruct (W_cases HV) as [E|E].
    + replace (2 * W =? 128) with false by (rewrite E; reflexivity).
      rewrite fix_i128_ok by auto. cbn [bind]. unfold fits_s in Hn. change (128 - 1) with 127 in Hn. apply fix_o128_ok; auto. lia.
    + replace (2 * W =? 128) with true by (rewrite E; reflexivity).
      assert (fits_s (2 * W) n) by (rewrite E; exact Hn). rewrite scast_fits by (auto; lia). apply m_overflowing_iwide_ok; auto.
Qed.
Lemma m_checked_us_ok : forall o k sg x n, wf x -> fits_u (kbits k) n ->
  m_checked_us sm u128n fix_o128 o k sg x n = Ok (some_if (negb (nof sg (sopz o (val sg x) n))) (sopz o (val sg x) n)).
Proof. intros. unfold m_checked_us. rewrite m_overflowing_us_ok by auto. apply opt_ok. Qed.
Lemma m_checked_is_ok : forall o k x n, wf x -> fits_s (kbits k) n ->
  m_checked_is sm i128n fix_o128 o k x n = Ok (some_if (negb (nof true (sopz o (sval x) n))) (sopz o (sval x) n)).
Proof. intros. unfold m_checked_is. rewrite m_overflowing_is_ok by auto. apply opt_ok. Qed.
Lemma m_plain_us_ok : forall o k sg x n, wf x -> fits_u (kbits k) n ->
  m_plain_us sm u128n fix_w128 fix_o128 o k sg x n = op_result sg (sopz o (val sg x) n).
Proof.
  intros. unfold m_plain_us, op_result. rewrite m_checked_us_ok, m_wrapping_us_ok by auto. destruct chk; cbn [negb andb]; auto.
  rewrite unwrap_some_if. unfold ok_if, nof. destruct (fitsb _ _); reflexivity.
Qed.
Lemma m_plain_is_ok : forall o k x n, wf x -> fits_s (kbits k) n ->
  m_plain_is sm i128n fix_w128 fix_o128 o k x n = op_result true (sopz o (sval x) n).
Proof.
  intros. unfold m_plain_is, op_result. rewrite m_checked_is_ok, m_wrapping_is_ok by auto. destruct chk; cbn [negb andb]; auto.
  rewrite unwrap_some_if. unfold ok_if, nof. destruct (fitsb _ _); reflexivity.
Qed.

(** ** Parsing *)

Definition neg_scan (r : scanned) : scanned := match r with Value v => Value (- v) | r => r end.
(** the limit on the magnitude *)
Definition mag (sg neg : bool) : Z := if neg then 2 ^ (BITS - 1) else hi_of sg.
Lemma m_checked_loop_ok : forall sg neg radix s acc, 2 <= radix <= 36 -> bytes s -> (neg = true -> sg = true) -> 0 <= acc <= mag sg neg ->
  m_checked_loop sm sg neg radix s (ofZ (signz neg acc)) = Ok (from_scan_abs neg (scan (mag sg neg) radix acc s)).
Proof.
  intros sg neg radix s. induction s as [|ch t IH]; intros acc Hr Hb Hs Ha; [reflexivity|].
  inversion Hb as [|? ? Hc Ht]; subst. cbn [m_checked_loop scan].
  rewrite char_to_digit_ok by auto. cbn [bind]. destruct (digit_in radix ch) as [d|] eqn:E; [|reflexivity].
  pose proof (digit_in_range _ _ _ E) as Hd. rewrite !(ucast_limb HV) by lia.
  pose proof (pBh HV) as PH. pose proof (pB HV) as PB.
  assert (F : forall v, 0 <= v -> (fits sg (signz neg v) <-> v <= mag sg neg)).
  { intros v Hv. destruct sg, neg; cbn; unfold fits_s, fits_u; try lia. }
  assert (NF : forall v, 0 <= v -> nof sg (signz neg v) = negb (v <=? mag sg neg)).
  { intros v Hv. unfold nof. f_equal. destruct (fitsb_reflect sg (signz neg v)) as [X|X]; rewrite F in X by auto; symmetry; [apply Z.leb_le|apply Z.leb_gt]; lia. }
  rewrite m_overflowing_ulimb_ok by (try apply (wf_ofZ HV); apply (small_limb HV); lia). cbn [sopz].
  rewrite (val_ofZ_small HV) by (apply F; lia).
  replace (signz neg acc * radix) with (signz neg (acc * radix)) by (destruct neg; cbn [signz]; ring).
  assert (0 <= acc * radix) by nia. rewrite NF by auto. rewrite opt_eq, negb_involutive. cbn [bind].
  destruct (Z.leb_spec (acc * radix) (mag sg neg)) as [Hm|Hm].
  - rewrite m_overflowing_ulimb_ok by (try apply (wf_ofZ HV); apply (small_limb HV); lia).
    rewrite (val_ofZ_small HV) by (apply F; lia).
    replace (sopz (if neg then SSub else SAdd) (signz neg (acc * radix)) d) with (signz neg (acc * radix + d)) by (destruct neg; cbn [signz sopz]; ring).
    rewrite NF by lia. rewrite opt_eq, negb_involutive. cbn [bind].
    destruct (Z.leb_spec (acc * radix + d) (mag sg neg)) as [Hd2|Hd2]; [|reflexivity].
    apply IH; auto. lia.
  - destruct (Z.leb_spec (acc * radix + d) (mag sg neg)); [lia|]. reflexivity.
Qed.
Lemma m_parse_digits_ok : forall sg neg radix s, 2 <= radix <= 36 -> bytes s -> (neg = true -> sg = true) ->
  m_parse_digits sm sg neg radix s = Ok (from_scan_abs neg (scan (mag sg neg) radix 0 s)).
Proof.
  intros sg neg radix s Hr Hb Hs. unfold m_parse_digits. rewrite (from_u8_ok HV) by (unfold fits_u; lia). cbn [bind].
  pose proof (pBh HV). pose proof (pB HV).
  replace (ofZ 0) with (ofZ (signz neg 0)) by (destruct neg; reflexivity).
  destruct (Z.leb_spec (Z.of_nat (length s)) (overflow_digits radix sg)) as [L|L].
  - pose proof (overflow_digits_ok HV sg radix (Z.of_nat (length s)) Hr ltac:(lia)) as O.
    rewrite (unchecked_loop_ok HV) by auto.
    assert (hi_of sg <= mag sg neg) by (destruct neg; cbn [mag]; [rewrite Hs by auto; cbn [hi_of]|]; lia).
    rewrite scan_nolimit by lia. destruct (horner _ _ _); reflexivity.
  - apply m_checked_loop_ok; auto. destruct neg, sg; cbn [mag hi_of]; lia.
Qed.

(** what the corrected parser returns *)
Definition m_result (sg : bool) (radix : Z) (s : list Z) : parsed :=
  let run neg t := match t with [] => PErr EInvalidDigit | _ => from_scan_abs neg (scan (mag sg neg) radix 0 t) end in
  match s with
  | [] => PErr EEmpty
  | b :: t => if b =? 43 then run false t
              else if b =? 45 then if sg then run true t else PErr ENegOverflow
              else run false s
  end.
Lemma m_from_str_radix_ok : forall sg s radix, 2 <= radix <= 36 -> bytes s ->
  m_from_str_radix sm fix_lone sg s radix = Ok (m_result sg radix s).
Proof.
  intros sg s radix Hr Hb. unfold m_from_str_radix, m_result.
  destruct (Z.ltb_spec radix 2); [lia|]. destruct (Z.ltb_spec 36 radix); [lia|]. cbn [orb].
  destruct s as [|b t]; [reflexivity|]. assert (Ht : bytes t) by (inversion Hb; auto).
  destruct (b =? 43); [|destruct (b =? 45); [destruct sg|]].
  - rewrite m_parse_digits_ok by (auto; discriminate). destruct t; reflexivity.
  - rewrite m_parse_digits_ok by auto. destruct t; reflexivity.
  - reflexivity.
  - apply m_parse_digits_ok; auto. discriminate.
Qed.
End P.
