(** * The x86_64 word division and the portable one

    MDiv.v models the portable [div_rem_word].  Here: the [div] instruction gives the same
    quotient and remainder, and every division is the same in both builds. *)

Require Import ZArith List Bool Lia.
From Verif Require Import Prim Spec Facts MAdd MCore MArith MDiv MApi MAsm PRet PAdd PDiv PArith2 PropsDiv.
Import ListNotations.
Local Open Scope Z_scope.
Local Notation E64 := (@ofZ c256_64).

(** ** Tools *)

Definition gives {A} (P : A -> Prop) (m : res A) : Prop := match m with Ok a => P a | _ => True end.
Lemma gives_bind : forall A B (P : A -> Prop) (Q : B -> Prop) m k, gives P m -> (forall a, P a -> gives Q (k a)) -> gives Q (bind m k).
Proof. intros A B P Q [a| |] k H K; cbn in *; auto. Qed.
Lemma gives_any : forall A (m : res A), gives (fun _ => True) m.
Proof. intros A [a| |]; exact I. Qed.
Lemma bind_same : forall A B (P : A -> Prop) (m : res A) (k k' : A -> res B), gives P m -> (forall a, P a -> k a = k' a) -> bind m k = bind m k'.
Proof. intros A B P [a| |] k k' H K; cbn in *; auto. Qed.
Lemma gives_for_m : forall St (P : St -> Prop) body k i s, P s -> (forall i s, P s -> gives P (body i s)) -> gives P (for_m k i body s).
Proof.
  intros St P body k. induction k as [|k IH]; intros i s Hs H; cbn [for_m]; [exact Hs|]. apply gives_bind with P; auto.
Qed.
Lemma for_m_same : forall St (P : St -> Prop) b b' k i s, P s -> (forall i s, P s -> gives P (b i s)) -> (forall i s, P s -> b' i s = b i s) ->
  for_m k i b' s = for_m k i b s.
Proof.
  intros St P b b' k. induction k as [|k IH]; intros i s Hs G E; cbn [for_m]; [reflexivity|]. rewrite E by exact Hs.
  apply bind_same with P; auto.
Qed.

Section P.
Context {c : Cfg}.
Hypothesis HW : 2 <= W <= 64.
Local Notation B := (2 ^ W).
Lemma B_pos : 0 < B. Proof. apply pow2_pos. lia. Qed.
Lemma ucast_in : forall v, 0 <= ucast W v < B.
Proof. intro v. apply Z.mod_pos_bound. exact B_pos. Qed.
Lemma get_in : forall l i, digits W l -> gives (fun v => 0 <= v < B) (get l i).
Proof. intros l i H. unfold get. destruct (nth_error l i) eqn:E; cbn; [|exact I]. apply nth_error_In in E. unfold digits in H. rewrite Forall_forall in H. auto. Qed.
Lemma set_in : forall l i v, digits W l -> 0 <= v < B -> gives (digits W) (set l i v).
Proof. intros l i v H Hv. unfold set. destruct (_ <? _)%nat; cbn; [|exact I]. apply digits_upd; auto. Qed.
Definition apo_in (a : list Z * Z) : Prop := digits W (fst a) /\ 0 <= snd a < B.
Lemma apo_get_in : forall a i, apo_in a -> gives (fun v => 0 <= v < B) (apo_get a i).
Proof. intros a i (H & T). unfold apo_get. destruct (_ =? _)%nat; [exact T|apply get_in; auto]. Qed.
Lemma apo_set_in : forall a i v, apo_in a -> 0 <= v < B -> gives apo_in (apo_set a i v).
Proof.
  intros a i v (H & T) Hv. unfold apo_set. destruct (_ =? _)%nat; [split; auto|].
  apply gives_bind with (digits W); [apply set_in; auto|]. intros l Hl. split; auto.
Qed.
Lemma ushl_in : forall x s, gives (fun v => 0 <= v < B) (ushl W x s).
Proof. intros. unfold ushl. destruct (_ && _); [apply ucast_in|]. destruct chk; [exact I|apply ucast_in]. Qed.
Lemma shr_in : forall x k, 0 <= k -> 0 <= x < B -> 0 <= x / 2 ^ k < B.
Proof.
  intros x k Hk Hx. pose proof (pow2_pos k Hk) as P. split; [apply Z.div_pos; lia|]. apply Z.div_lt_upper_bound; [lia|]. nia.
Qed.
Lemma ushr_in : forall x s, 0 <= x < B -> gives (fun v => 0 <= v < B) (ushr W x s).
Proof.
  intros x s Hx. unfold ushr. destruct (in_u 32 s && (s <? W)) eqn:E.
  - apply andb_true_iff in E. destruct E as (E & _). assert (F : fits_u 32 s) by (destruct (in_u_reflect 32 s); [auto|discriminate]). apply shr_in; auto. apply F.
  - destruct chk; [exact I|]. apply shr_in; auto. apply Z.mod_pos_bound. lia.
Qed.
Lemma lor_in : forall x y, 0 <= x < B -> 0 <= y < B -> 0 <= Z.lor x y < B.
Proof.
  intros x y Hx Hy. assert (N : 0 <= Z.lor x y) by (apply Z.lor_nonneg; lia). split; [exact N|].
  destruct (Z.eq_dec (Z.lor x y) 0) as [E|E]; [rewrite E; exact B_pos|]. apply Z.log2_lt_pow2; [lia|]. rewrite Z.log2_lor by lia.
  assert (K : forall z, 0 <= z < B -> Z.log2 z < W).
  { intros z Hz. destruct (Z.eq_dec z 0) as [->|Hn]; [cbn; lia|]. apply Z.log2_lt_pow2; lia. }
  pose proof (K x Hx). pose proof (K y Hy). lia.
Qed.
Lemma full_shl_in : forall v s, digits W v -> gives apo_in (full_shl v s).
Proof.
  intros v s Hv. unfold full_shl. apply gives_bind with (fun _ => True); [apply gives_any|]. intros _ _.
  destruct (s =? 0); [split; [exact Hv|cbn; pose proof B_pos; lia]|]. cbv zeta.
  apply gives_bind with (fun _ => True); [apply gives_any|]. intros v0 _.
  apply gives_bind with (fun v => 0 <= v < B); [apply ushl_in|]. intros o0 H0.
  apply gives_bind with (digits W); [apply set_in; [apply digits_repeat0; lia|auto]|]. intros out Ho.
  apply gives_bind with (digits W).
  - apply gives_for_m; auto. intros i o Hoo. apply gives_bind with (fun v => 0 <= v < B); [apply get_in; auto|]. intros p Hp.
    apply gives_bind with (fun v => 0 <= v < B); [apply get_in; auto|]. intros x Hx. apply gives_bind with (fun _ => True); [apply gives_any|]. intros inv _.
    apply gives_bind with (fun v => 0 <= v < B); [apply ushr_in; auto|]. intros l Hl. apply gives_bind with (fun v => 0 <= v < B); [apply ushl_in|]. intros h Hh.
    apply set_in; auto. apply lor_in; auto.
  - intros out' Ho'. apply gives_bind with (fun v => 0 <= v < B); [apply get_in; auto|]. intros t Ht.
    apply gives_bind with (fun _ => True); [apply gives_any|]. intros inv _. apply gives_bind with (fun v => 0 <= v < B); [apply ushr_in; auto|]. intros cy Hc. split; auto.
Qed.
Lemma shl_word_in : forall v s, digits W v -> gives (digits W) (shl_word v s).
Proof. intros v s Hv. unfold shl_word. apply gives_bind with apo_in; [apply full_shl_in; auto|]. intros r Hr. apply Hr. Qed.
Lemma sub_mul_in : forall a q n j, apo_in a -> gives (fun s => apo_in (fst s)) (sub_mul a q n j).
Proof.
  intros a q n j Ha. unfold sub_mul. apply gives_for_m; auto. intros i [num cy] Hn. cbn [fst] in Hn.
  apply gives_bind with (fun v => 0 <= v < B); [apply apo_get_in; auto|]. intros x Hx. apply gives_bind with (fun _ => True); [apply gives_any|]. intros y _.
  unfold p_overflowing_add, p_overflowing_sub. apply gives_bind with apo_in; [apply apo_set_in; auto; apply ucast_in|]. intros num' Hn'. exact Hn'.
Qed.
Lemma add_back_in : forall a d n j, apo_in a -> gives apo_in (add_back a d n j).
Proof.
  intros a d n j Ha. unfold add_back. apply gives_bind with (fun s => apo_in (fst s)).
  - apply gives_for_m; auto. intros i [num cy] Hn. cbn [fst] in Hn.
    apply gives_bind with (fun v => 0 <= v < B); [apply apo_get_in; auto|]. intros x Hx. apply gives_bind with (fun _ => True); [apply gives_any|]. intros y _.
    unfold p_overflowing_add. apply gives_bind with apo_in; [apply apo_set_in; auto; apply ucast_in|]. intros num' Hn'. exact Hn'.
  - intros [num cy] Hn. apply gives_bind with (fun _ => True); [apply gives_any|]. intros v _. apply apo_set_in; auto. apply ucast_in.
Qed.
Lemma knuth_step_in : forall d n b0 b1 j s, apo_in (fst s) -> gives (fun s => apo_in (fst s)) (knuth_step d n b0 b1 j s).
Proof.
  intros d n b0 b1 j [num q] Hn. cbn [fst] in Hn. unfold knuth_step.
  do 4 (apply gives_bind with (fun _ => True); [apply gives_any|]; intros ? _).
  apply gives_bind with (fun s => apo_in (fst s)); [apply sub_mul_in; auto|]. intros [num' cy] Hn'. cbn [fst] in Hn'.
  apply gives_bind with (fun s => apo_in (fst s)).
  - destruct cy; [|exact Hn']. apply gives_bind with (fun _ => True); [apply gives_any|]; intros ? _.
    apply gives_bind with apo_in; [apply add_back_in; auto|]. intros nn Hnn. exact Hnn.
  - intros [num2 qh] H2. apply gives_bind with (fun _ => True); [apply gives_any|]. intros q' _. exact H2.
Qed.

(** ** Two word divisions that agree where the callers need them *)
Section Same.
Variable dw : Z -> Z -> Z -> res (Z * Z).
Hypothesis dw_ok : forall hi lo d, 0 <= hi < d -> d < B -> 0 <= lo < B -> dw hi lo d = div_rem_word hi lo d.
Hypothesis dw_0 : forall hi lo, 0 <= hi -> dw hi lo 0 = Panic.

Lemma div_limb_same : forall x d, digits W x -> 0 <= d < B -> div_limb_w dw x d = div_limb x d.
Proof.
  intros x d Hx Hd. unfold div_limb_w, div_limb. cbv zeta. apply bind_same with (fun _ => True); [apply gives_any|]. intros z _. destruct z; [reflexivity|].
  unfold for_range. apply for_m_same with (P := fun s : list Z * Z => digits W (fst s) /\ 0 <= snd s /\ (d = 0 \/ snd s < d)).
  - cbn. split; [auto|]. lia.
  - intros i [num r] (Hn & R0 & R1). cbn [fst snd] in *. apply gives_bind with (fun v => 0 <= v < B); [apply get_in; auto|]. intros v Hv.
    destruct R1 as [->|R1]; [rewrite div_rem_word_0; [exact I|auto|lia]|]. rewrite (div_rem_word_ok HW) by lia. cbn [bind].
    apply gives_bind with (digits W).
    + apply set_in; auto. split; [apply Z.div_pos; nia|]. apply Z.div_lt_upper_bound; nia.
    + intros num' Hn'. cbn. pose proof (Z.mod_pos_bound (r * B + v) d ltac:(lia)). split; [auto|]. lia.
  - intros i [num r] (Hn & R0 & R1). cbn [fst snd] in *. apply bind_same with (fun v => 0 <= v < B); [apply get_in; auto|]. intros v Hv.
    destruct R1 as [->|R1]; [rewrite dw_0 by auto; rewrite (div_rem_word_0 HW) by auto; reflexivity|]. rewrite dw_ok by lia. reflexivity.
Qed.
Lemma limb_padded_same : forall x n d, digits W x -> 0 <= d < B -> limb_padded_w dw x n d = limb_padded x n d.
Proof. intros x n d Hx Hd. unfold limb_padded_w, limb_padded. rewrite div_limb_same by auto. reflexivity. Qed.
Lemma estimate_same : forall a0 a1 a2 b0 b1, 0 <= a0 < B -> 0 <= a1 < B -> 0 <= b0 < B -> estimate_w dw a0 a1 a2 b0 b1 = estimate a0 a1 a2 b0 b1.
Proof.
  intros a0 a1 a2 b0 b1 H0 H1 Hb. unfold estimate_w, estimate. destruct (Z.ltb_spec a0 b0); [|reflexivity]. rewrite dw_ok by lia. reflexivity.
Qed.
Lemma knuth_step_same : forall d n b0 b1 j s, apo_in (fst s) -> 0 <= b0 < B -> knuth_step_w dw d n b0 b1 j s = knuth_step d n b0 b1 j s.
Proof.
  intros d n b0 b1 j [num q] Hn Hb. cbn [fst] in Hn. unfold knuth_step_w, knuth_step.
  apply bind_same with (fun v => 0 <= v < B); [apply apo_get_in; auto|]. intros a0 H0.
  apply bind_same with (fun v => 0 <= v < B); [apply get_in; apply Hn|]. intros a1 H1. rewrite estimate_same by auto. reflexivity.
Qed.
Lemma knuth_same : forall x y n m, digits W x -> digits W y -> div_rem_knuth_w dw x y n m = div_rem_knuth x y n m.
Proof.
  intros x y n m Hx Hy. unfold div_rem_knuth_w, div_rem_knuth.
  apply bind_same with (fun _ => True); [apply gives_any|]. intros _ _. apply bind_same with (fun _ => True); [apply gives_any|]. intros top _. cbv zeta.
  apply bind_same with (digits W); [apply shl_word_in; auto|]. intros d Hd. apply bind_same with apo_in; [apply full_shl_in; auto|]. intros num Hn.
  apply bind_same with (fun v => 0 <= v < B); [apply get_in; auto|]. intros b0 Hb0. apply bind_same with (fun _ => True); [apply gives_any|]. intros b1 _.
  f_equal. unfold for_range. apply for_m_same with (P := fun s : list Z * Z * list Z => apo_in (fst s)); auto.
  - intros. apply knuth_step_in; auto.
  - intros. apply knuth_step_same; auto.
Qed.
Lemma full_gt_same : forall x y, digits W x -> digits W y -> full_gt_w dw x y = full_gt x y.
Proof.
  intros x y Hx Hy. unfold full_gt_w, full_gt. apply bind_same with (fun _ => True); [apply gives_any|]. intros n _. destruct (n =? 0)%nat.
  - apply bind_same with (fun v => 0 <= v < B); [apply get_in; auto|]. intros d Hd. apply limb_padded_same; auto.
  - do 2 (apply bind_same with (fun _ => True); [apply gives_any|]; intros ? _). apply knuth_same; auto.
Qed.
Lemma div_full_same : forall x y, digits W x -> digits W y -> div_full_w dw x y = div_full x y.
Proof.
  intros x y Hx Hy. unfold div_full_w, div_full. cbv zeta. destruct (_ =? 1)%nat.
  - apply bind_same with (fun v => 0 <= v < B); [apply get_in; auto|]. intros d Hd. apply limb_padded_same; auto.
  - apply bind_same with (fun _ => True); [apply gives_any|]. intros [| |] _; try reflexivity.
    apply bind_same with (fun _ => True); [apply gives_any|]. intros z _. destruct z; [reflexivity|]. apply full_gt_same; auto.
Qed.
Lemma scalar2_in : forall n v, gives (digits W) (scalar2 n v).
Proof.
  intros n v. unfold scalar2. apply gives_bind with (fun _ => True); [apply gives_any|]. intros _ _.
  apply gives_bind with (digits W); [apply set_in; [apply digits_repeat0; lia|apply ucast_in]|]. intros r Hr.
  apply gives_bind with (fun _ => True); [apply gives_any|]. intros h _. apply set_in; auto. apply ucast_in.
Qed.
Lemma div_wide_same : forall x d, digits W x -> div_wide_w dw x d = div_wide x d.
Proof.
  intros x d Hx. unfold div_wide_w, div_wide. cbv zeta. apply bind_same with (fun _ => True); [apply gives_any|]. intros z _. destruct z; [reflexivity|].
  apply bind_same with (digits W); [apply scalar2_in|]. intros y Hy. apply bind_same with (fun _ => True); [apply gives_any|]. intros [| |] _; try reflexivity.
  rewrite full_gt_same by auto. reflexivity.
Qed.
End Same.
End P.

(** ** C75 *)

Lemma reg_same : forall r, reg_eqb r r = true.
Proof. destruct r; cbn; auto. apply Nat.eqb_refl. Qed.
Lemma reg_diff : forall a b, a <> b -> reg_eqb a b = false.
Proof. intros a b H. destruct a, b; cbn; try reflexivity; try congruence. apply Nat.eqb_neq. congruence. Qed.
Lemma asm_block_eq : forall r s q m d, r <> RAX -> r <> RDX ->
  asm_block r s q m d = if d =? 0 then Panic else if 2 ^ 64 <=? (m * 2 ^ 64 + q) / d then Panic else Ok ((m * 2 ^ 64 + q) / d, (m * 2 ^ 64 + q) mod d).
Proof.
  intros r s q m d H1 H2. unfold asm_block, exec_div, write. rewrite (reg_diff r RDX H2), (reg_diff r RAX H1), reg_same. cbn [reg_eqb].
  destruct (d =? 0); [reflexivity|]. destruct (_ <=? _); reflexivity.
Qed.
(** The asm block divides, whatever the registers held and whichever other register holds
    the divisor; it traps exactly where the quotient has no 64-bit value. *)
Theorem C75_block : forall r s quot rem d, r <> RAX -> r <> RDX -> fits_u 64 quot -> fits_u 64 rem -> fits_u 64 d ->
  (rem < d -> asm_block r s quot rem d = Ok ((rem * 2 ^ 64 + quot) / d, (rem * 2 ^ 64 + quot) mod d)) /\
  (d <= rem -> asm_block r s quot rem d = Panic).
Proof.
  intros r s quot rem d H1 H2 Hq Hr Hd. unfold fits_u in *. rewrite asm_block_eq by auto. split; intro H.
  - destruct (Z.eqb_spec d 0); [lia|]. destruct (Z.leb_spec (2 ^ 64) ((rem * 2 ^ 64 + quot) / d)) as [L|L]; [|reflexivity]. exfalso.
    assert ((rem * 2 ^ 64 + quot) / d < 2 ^ 64) by (apply Z.div_lt_upper_bound; lia). lia.
  - destruct (Z.eqb_spec d 0); [reflexivity|]. destruct (Z.leb_spec (2 ^ 64) ((rem * 2 ^ 64 + quot) / d)) as [L|L]; [reflexivity|]. exfalso.
    assert (2 ^ 64 <= (rem * 2 ^ 64 + quot) / d) by (apply Z.div_le_lower_bound; lia). lia.
Qed.
(** The two variants of [div_rem_word] agree except with debug assertions off and a high
    word not below a nonzero divisor: there one traps, the other truncates the quotient. *)
Theorem C75_word : forall (c : Cfg) r s hi lo d, W = 64 -> r <> RAX -> r <> RDX -> fits_u 64 hi -> fits_u 64 lo -> fits_u 64 d ->
  (div_rem_word_asm r s hi lo d = div_rem_word hi lo d <-> dbg = true \/ hi < d \/ d = 0).
Proof.
  intros c r s hi lo d HW H1 H2 Hh Hl Hd. assert (H2W : 2 <= W <= 64) by lia. destruct (C75_block r s lo hi d H1 H2 Hl Hh Hd) as (A & B). unfold fits_u in *.
  assert (N0 : d <> 0 -> d <= hi -> dbg = false -> div_rem_word hi lo d = Ok (((hi * 2 ^ 64 + lo) / d) mod 2 ^ 64, ((hi * 2 ^ 64 + lo) mod d) mod 2 ^ 64)).
  { intros N L D. unfold div_rem_word, dassert. rewrite D. cbn [bind]. rewrite HW. rewrite ushl_ok by lia. cbn [bind].
    change (2 ^ (2 * 64)) with (2 ^ 64 * 2 ^ 64). unfold ucast. rewrite (Z.mod_small (hi * 2 ^ 64)) by (change (2 ^ (2 * 64)) with (2 ^ 64 * 2 ^ 64); nia).
    unfold uadd. rewrite uchk_ok by (change (2 ^ (2 * 64)) with (2 ^ 64 * 2 ^ 64); nia). cbn [bind]. unfold udiv, urem. destruct (Z.eqb_spec d 0); [lia|]. reflexivity. }
  unfold div_rem_word_asm. destruct (Z.lt_ge_cases hi d) as [L|L].
  - rewrite (div_rem_word_ok H2W) by (rewrite ?HW; lia). destruct (Z.ltb_spec hi d); [|lia]. destruct (Z.eqb_spec d 0); [lia|]. cbn [negb]. rewrite !dassert_true. cbn [bind].
    rewrite A by lia. rewrite HW. tauto.
  - destruct (Z.eq_dec d 0) as [->|Hn].
    + rewrite (div_rem_word_0 H2W) by lia. split; [auto|]. intros _. unfold dassert. destruct dbg; [|cbn [bind]; apply B; lia]. destruct (Z.ltb_spec hi 0); [lia|reflexivity].
    + destruct dbg eqn:D.
      * split; [auto|]. intros _. unfold div_rem_word, dassert. rewrite D. destruct (Z.ltb_spec hi d); [lia|reflexivity].
      * rewrite (N0 Hn L eq_refl). unfold dassert. rewrite D. cbn [bind]. rewrite B by lia. split; [discriminate|]. intros [E|[E|E]]; [discriminate|lia|lia].
Qed.
(** No caller gets there: dividing with the instruction and with the portable code is the
    same, errors included, for every pair of arrays. *)
Lemma asm_same : forall (c : Cfg) r s, W = 64 -> r <> RAX -> r <> RDX ->
  (forall hi lo d, 0 <= hi < d -> d < 2 ^ W -> 0 <= lo < 2 ^ W -> div_rem_word_asm r s hi lo d = div_rem_word hi lo d) /\
  (forall hi lo, 0 <= hi -> div_rem_word_asm r s hi lo 0 = Panic).
Proof.
  intros c r s HW H1 H2. split.
  - intros hi lo d Hh Hd Hl. rewrite HW in *. apply (C75_word c r s hi lo d HW H1 H2); unfold fits_u; lia.
  - intros hi lo Hh. unfold div_rem_word_asm, dassert. destruct (Z.ltb_spec hi 0); [lia|]. destruct dbg; [reflexivity|]. cbn [bind]. rewrite asm_block_eq by auto. reflexivity.
Qed.
Theorem C75_arrays : forall (c : Cfg) r s x y, W = 64 -> r <> RAX -> r <> RDX -> digits W x -> digits W y ->
  div_full_w (div_rem_word_asm r s) x y = div_full x y /\
  (forall d, fits_u W d -> div_limb_w (div_rem_word_asm r s) x d = div_limb x d) /\
  (forall d, div_wide_w (div_rem_word_asm r s) x d = div_wide x d).
Proof.
  intros c r s x y HW H1 H2 Hx Hy. destruct (asm_same c r s HW H1 H2) as (A & B). assert (H2W : 2 <= W <= 64) by lia.
  split; [|split].
  - apply div_full_same; auto.
  - intros d Hd. apply div_limb_same; auto.
  - intros d. apply div_wide_same; auto.
Qed.
(** The division of the public types is the same in the x86_64 build as modelled. *)
Theorem C75_public : forall (c : Cfg) r s sg x y, Valid -> W = 64 -> r <> RAX -> r <> RDX -> wf x -> wf y ->
  wrapping_div_rem_w (div_rem_word_asm r s) sg x y = wrapping_div_rem sg x y.
Proof.
  intros c r s sg x y HV HW H1 H2 Hx Hy. unfold wrapping_div_rem_w, wrapping_div_rem. destruct sg.
  - unfold s_wrapping_div_rem_w, s_wrapping_div_rem. rewrite !(unsigned_abs_ok HV) by auto. cbn [bind].
    pose proof (proj2 (wf_ofZ HV (Z.abs (sval x)))) as Dx. pose proof (proj2 (wf_ofZ HV (Z.abs (sval y)))) as Dy.
    destruct (C75_arrays c r s _ _ HW H1 H2 Dx Dy) as (E & _). rewrite E. reflexivity.
  - unfold u_wrapping_div_rem_w, u_wrapping_div_rem. destruct (C75_arrays c r s _ _ HW H1 H2 (proj2 Hx) (proj2 Hy)) as (E & _). rewrite E. reflexivity.
Qed.
Example C75_ex1 : asm_block RCX (fun _ => 7) 5 1 3 = Ok (6148914691236517207, 0) /\ asm_block RCX (fun _ => 7) 5 3 3 = Panic /\ asm_block RCX (fun _ => 7) 5 1 0 = Panic.
Proof. vm_compute. auto. Qed.
(** The operand must not share a register with the dividend. *)
Example C75_ex2 : asm_block RDX (fun _ => 7) 5 1 3 <> Ok (6148914691236517207, 0).
Proof. vm_compute. discriminate. Qed.
(** 2 * 2^64 + 1 by 2 with debug assertions off: the variants differ, but no division calls it so. *)
Example C75_ex3 : let c := {| W := 64; N := 4%nat; chk := true; dbg := false |} in
  div_rem_word_asm (c := c) RSI (fun _ => 0) 2 1 2 = Panic /\ div_rem_word (c := c) 2 1 2 = Ok (0, 1).
Proof. vm_compute. auto. Qed.
Example C75_ex4 : wrapping_div_rem_w (c := c256_64) (div_rem_word_asm (c := c256_64) RBX (fun _ => 9)) true (E64 (- (10 ^ 60))) (E64 (3 ^ 60)) =
  Ok (E64 (Z.quot (- (10 ^ 60)) (3 ^ 60)), E64 (Z.rem (- (10 ^ 60)) (3 ^ 60))).
Proof. vm_compute. reflexivity. Qed.

(** ** Assumptions (each must print "Closed under the global context") *)

Print Assumptions C75_block.
Print Assumptions C75_word.
Print Assumptions C75_arrays.
Print Assumptions C75_public.
