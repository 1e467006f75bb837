(** * Properties: shifts, rotations, bits, comparison, casts, constants
      (C15-C19, C21, C24, C25, C37, C45, C46) *)

Require Import ZArith List Bool Lia.
From Verif Require Import Prim Spec Facts MAdd MMul MShift MCore PCore PBits PWide MArith PArith PArith2 PPow PMisc PBits2 PRet.
Import ListNotations.
Local Open Scope Z_scope.

Notation E64 := (@ofZ c256_64).
Notation E32 := (@ofZ c256_32).
Notation E384 := (@ofZ c384_64).
Notation E512 := (@ofZ c512_32).

(** ** C15: left shift *)

Theorem C15_wrapping_shl : forall (c : Cfg) x r, Valid -> wf x -> 0 <= r < 2 ^ 32 ->
  returns_u (wrapping_shl x r) ((uval x * 2 ^ (r mod BITS)) mod 2 ^ BITS) /\
  returns_s (wrapping_shl x r) (swrap BITS (sval x * 2 ^ (r mod BITS))).
Proof.
  intros c x r HV Hx Hr. split; [exact (retU HV _ _ (wrapping_shl_ok HV x r Hx))|]. apply (retS HV).
  rewrite (wrapping_shl_ok HV) by auto. f_equal. destruct (val_cong HV true x Hx) as (k & E). cbn [val] in E. rewrite E.
  symmetry. apply (ofZ_cong HV) with (k := k * 2 ^ (r mod BITS)). ring.
Qed.
Theorem C15_checked_shl : forall (c : Cfg) x r, Valid -> wf x -> 0 <= r < 2 ^ 32 ->
  returns_u_opt (checked_shl x r) (r < BITS) ((uval x * 2 ^ r) mod 2 ^ BITS).
Proof.
  intros c x r HV Hx Hr. rewrite (checked_shl_ok HV) by (auto; lia). unfold some_if. destruct (Z.ltb_spec r BITS); [left|right].
  - split; auto. exists (ofZ (uval x * 2 ^ r)). split; auto. split; [apply (wf_ofZ HV)|apply (uval_ofZ HV)].
  - split; [lia|auto].
Qed.
Theorem C15_strict_shl : forall (c : Cfg) x r, Valid -> wf x -> 0 <= r < 2 ^ 32 ->
  returns_u_or_panics (strict_shl x r) (r < BITS) ((uval x * 2 ^ r) mod 2 ^ BITS).
Proof.
  intros c x r HV Hx Hr. rewrite (strict_shl_ok HV) by (auto; lia). unfold ok_if. destruct (Z.ltb_spec r BITS); [left|right].
  - split; auto. apply (retU HV). auto.
  - split; [lia|auto].
Qed.
Theorem C15_unbounded_shl : forall (c : Cfg) x r, Valid -> wf x -> 0 <= r < 2 ^ 32 ->
  returns_u (unbounded_shl x r) ((uval x * 2 ^ r) mod 2 ^ BITS).
Proof. intros c x r HV Hx Hr. apply (retU HV), (unbounded_shl_ok HV); auto; lia. Qed.
Theorem C15_overflowing_shl : forall (c : Cfg) x r, Valid -> wf x -> 0 <= r < 2 ^ 32 ->
  returns_u_flag (s_overflowing_shl x r) ((uval x * 2 ^ (r mod BITS)) mod 2 ^ BITS) (BITS <= r).
Proof.
  intros c x r HV Hx Hr. rewrite (s_overflowing_shl_ok HV) by auto. eexists _, _. split; [reflexivity|].
  split; [apply (wf_ofZ HV)|]. split; [apply (uval_ofZ HV)|apply Z.leb_le].
Qed.
Example C15_ex1 : @wrapping_shl c256_32 (E32 5) 300 = Ok (E32 (5 * 2 ^ 44)) /\ @wrapping_shl c256_64 (E64 (-3)) 254 = Ok (E64 (2 ^ 254)).
Proof. vm_compute. auto. Qed.
Example C15_ex2 : @checked_shl c256_64 (E64 5) 256 = Ok None /\ @checked_shl c256_64 (E64 5) 255 = Ok (Some (E64 (2 ^ 255)))
  /\ @strict_shl c384_64 (E384 5) 384 = Panic /\ @unbounded_shl c384_64 (E384 5) 384 = Ok (E384 0)
  /\ @s_overflowing_shl c512_32 (E512 5) 515 = Ok (E512 40, true).
Proof. vm_compute. auto 10. Qed.

(** ** C16: right shift ([Z./] rounds towards minus infinity) *)

Theorem C16_wrapping_shr_u : forall (c : Cfg) x r, Valid -> wf x -> 0 <= r < 2 ^ 32 ->
  returns_u (wrapping_shr false x r) (uval x / 2 ^ (r mod BITS)).
Proof.
  intros c x r HV Hx Hr. apply (retU1 HV); [apply (wrapping_shr_ok HV); auto|]. cbn [val]. pose proof (uval_range HV x Hx).
  pose proof (BITS_pos HV). pose proof (Z.mod_pos_bound r BITS). assert (0 < 2 ^ (r mod BITS)) by (apply Z.pow_pos_nonneg; lia).
  split; [apply Z.div_pos; lia|]. apply Z.div_lt_upper_bound; nia.
Qed.
Theorem C16_wrapping_shr_s : forall (c : Cfg) x r, Valid -> wf x -> 0 <= r < 2 ^ 32 ->
  returns_s (wrapping_shr true x r) (sval x / 2 ^ (r mod BITS)).
Proof.
  intros c x r HV Hx Hr. apply (retS1 HV); [apply (wrapping_shr_ok HV); auto|]. cbn [val]. pose proof (sval_range HV x Hx).
  pose proof (BITS_pos HV). pose proof (Z.mod_pos_bound r BITS). assert (0 < 2 ^ (r mod BITS)) by (apply Z.pow_pos_nonneg; lia).
  pose proof (pBh HV). split; [apply Z.div_le_lower_bound; nia|]. apply Z.div_lt_upper_bound; nia.
Qed.
Theorem C16_checked_shr : forall (c : Cfg) x r, Valid -> wf x -> 0 <= r < 2 ^ 32 ->
  (r < BITS -> exists a b, checked_shr false x r = Ok (Some a) /\ returns_u (Ok a) (uval x / 2 ^ r) /\
     checked_shr true x r = Ok (Some b) /\ returns_s (Ok b) (sval x / 2 ^ r)) /\
  (BITS <= r -> checked_shr false x r = Ok None /\ checked_shr true x r = Ok None).
Proof.
  intros c x r HV Hx Hr. rewrite !(checked_shr_ok HV) by (auto; lia). unfold some_if. split; intro H.
  - destruct (Z.ltb_spec r BITS); [|lia]. eexists _, _. split; [reflexivity|]. pose proof (C16_wrapping_shr_u c x r HV Hx Hr) as A.
    pose proof (C16_wrapping_shr_s c x r HV Hx Hr) as B. rewrite (wrapping_shr_ok HV) in A, B by auto.
    rewrite Z.mod_small in A, B by lia. auto.
  - destruct (Z.ltb_spec r BITS); [lia|]. auto.
Qed.
Theorem C16_strict_shr : forall (c : Cfg) x r, Valid -> wf x -> 0 <= r < 2 ^ 32 ->
  returns_u_or_panics (strict_shr false x r) (r < BITS) (uval x / 2 ^ r) /\
  returns_s_or_panics (strict_shr true x r) (r < BITS) (sval x / 2 ^ r).
Proof.
  intros c x r HV Hx Hr. pose proof (C16_wrapping_shr_u c x r HV Hx Hr) as A. pose proof (C16_wrapping_shr_s c x r HV Hx Hr) as B.
  rewrite !(strict_shr_ok HV) by (auto; lia). rewrite (wrapping_shr_ok HV) in A, B by auto. unfold ok_if.
  destruct (Z.ltb_spec r BITS).
  - rewrite Z.mod_small in A, B by lia. split; left; auto.
  - split; right; (split; [lia|reflexivity]).
Qed.
(** Unsigned: an over-long shift gives 0 = floor; signed: it also gives 0, so
    for negative values it is not the floor (-1); see the refutation. *)
Theorem C16_unbounded_shr_u : forall (c : Cfg) x r, Valid -> wf x -> 0 <= r < 2 ^ 32 ->
  returns_u (unbounded_shr false x r) (uval x / 2 ^ r).
Proof.
  intros c x r HV Hx Hr. rewrite (unbounded_shr_ok HV) by (auto; lia). cbn [val]. pose proof (uval_range HV x Hx) as R.
  destruct (Z.ltb_spec r BITS).
  - pose proof (C16_wrapping_shr_u c x r HV Hx Hr) as A. rewrite (wrapping_shr_ok HV) in A by auto.
    rewrite Z.mod_small in A by lia. exact A.
  - pose proof (BITS_pos HV). rewrite Z.div_small; [apply (retU1 HV); auto; apply (fits_0 HV false)|].
    split; [lia|]. apply Z.lt_le_trans with (2 ^ BITS); [lia|]. apply Z.pow_le_mono_r; lia.
Qed.
Theorem C16_unbounded_shr_s_partial : forall (c : Cfg) x r, Valid -> wf x -> 0 <= r < 2 ^ 32 ->
  returns_s (unbounded_shr true x r) (if r <? BITS then sval x / 2 ^ r else 0).
Proof.
  intros c x r HV Hx Hr. rewrite (unbounded_shr_ok HV) by (auto; lia). cbn [val].
  destruct (Z.ltb_spec r BITS).
  - pose proof (C16_wrapping_shr_s c x r HV Hx Hr) as A. rewrite (wrapping_shr_ok HV) in A by auto.
    rewrite Z.mod_small in A by lia. exact A.
  - apply (retS1 HV); auto; apply (fits_0 HV true).
Qed.
Theorem C16_unbounded_shr_s_refuted : exists (c : Cfg) x r, Valid /\ wf x /\ 0 <= r < 2 ^ 32 /\
  ~ returns_s (unbounded_shr true x r) (sval x / 2 ^ r).
Proof.
  exists c256_64, (E64 (-1)), 256. split; [apply valid_c256_64|]. split; [apply wf_ofZ, valid_c256_64|]. split; [lia|].
  intros (r & E & _ & V). assert (E' : @unbounded_shr c256_64 true (E64 (-1)) 256 = Ok (E64 0)) by (vm_compute; reflexivity).
  rewrite E' in E. injection E as <-. clear E'. vm_compute in V. discriminate V.
Qed.
Theorem C16_overflowing_shr : forall (c : Cfg) x r, Valid -> wf x -> 0 <= r < 2 ^ 32 ->
  returns_s_flag (s_overflowing_shr x r) (sval x / 2 ^ (r mod BITS)) (BITS <= r).
Proof.
  intros c x r HV Hx Hr. rewrite (s_overflowing_shr_ok HV) by auto. pose proof (C16_wrapping_shr_s c x r HV Hx Hr) as A.
  rewrite (wrapping_shr_ok HV) in A by auto. destruct A as (a & E & A1 & A2). injection E as <-. cbn [val] in *.
  eexists _, _. split; [reflexivity|]. split; [exact A1|]. split; [exact A2|apply Z.leb_le].
Qed.
Example C16_ex1 : @wrapping_shr c256_64 true (E64 (-1000)) 3 = Ok (E64 (-125)) /\ @wrapping_shr c256_64 true (E64 (-1001)) 259 = Ok (E64 (-126))
  /\ @wrapping_shr c256_32 false (E32 (2 ^ 256 - 1)) 200 = Ok (E32 (2 ^ 56 - 1)).
Proof. vm_compute. auto. Qed.
Example C16_ex2 : @checked_shr c256_64 true (E64 (-8)) 2 = Ok (Some (E64 (-2))) /\ @checked_shr c256_64 false (E64 8) 256 = Ok None
  /\ @strict_shr c384_64 true (E384 (-8)) 400 = Panic /\ @unbounded_shr c384_64 false (E384 (-8)) 400 = Ok (E384 0)
  /\ @s_overflowing_shr c512_32 (E512 (-8)) 514 = Ok (E512 (-2), true).
Proof. vm_compute. auto 10. Qed.

(** ** C17: rotations *)

Theorem C17_rotate_left : forall (c : Cfg) x n, Valid -> wf x -> 0 <= n < 2 ^ 32 ->
  exists r, rotate_left x n = Ok r /\ wf r /\
    forall i, 0 <= i < BITS -> Z.testbit (uval r) ((i + n) mod BITS) = Z.testbit (uval x) i.
Proof.
  intros c x n HV Hx Hn. rewrite (rotate_left_ok HV) by (auto; lia). eexists. split; [reflexivity|]. split; [apply (wf_ofZ HV)|].
  intros i Hi. pose proof (BITS_pos HV). pose proof (uval_range HV x Hx). assert (0 <= n mod BITS < BITS) by (apply Z.mod_pos_bound; lia).
  assert (0 <= (i + n) mod BITS < BITS) by (apply Z.mod_pos_bound; lia).
  rewrite (uval_ofZ HV), Z.mod_small by (apply rotv_range; lia). rewrite rotv_bits by lia. f_equal.
  rewrite <- Zminus_mod. rewrite Z.add_simpl_r. apply Z.mod_small. lia.
Qed.
Theorem C17_rotate_right : forall (c : Cfg) x n, Valid -> wf x -> 0 <= n < 2 ^ 32 ->
  exists r, rotate_right x n = Ok r /\ wf r /\
    forall i, 0 <= i < BITS -> Z.testbit (uval r) i = Z.testbit (uval x) ((i + n) mod BITS).
Proof.
  intros c x n HV Hx Hn. rewrite (rotate_right_ok HV) by (auto; lia). eexists. split; [reflexivity|]. split; [apply (wf_ofZ HV)|].
  intros i Hi. pose proof (BITS_pos HV). pose proof (uval_range HV x Hx). assert (0 <= (- n) mod BITS < BITS) by (apply Z.mod_pos_bound; lia).
  rewrite (uval_ofZ HV), Z.mod_small by (apply rotv_range; lia). rewrite rotv_bits by lia. f_equal.
  rewrite Zminus_mod_idemp_r. f_equal. ring.
Qed.
Theorem C17_rotate_inverse : forall (c : Cfg) x n, Valid -> wf x -> 0 <= n < 2 ^ 32 ->
  (let* r := rotate_left x n in rotate_right r n) = Ok x /\ (let* r := rotate_right x n in rotate_left r n) = Ok x.
Proof.
  intros c x n HV Hx Hn. pose proof (BITS_pos HV).
  destruct (C17_rotate_left c x n HV Hx Hn) as (l & El & Wl & Bl). destruct (C17_rotate_right c x n HV Hx Hn) as (r & Er & Wr & Br).
  rewrite El, Er. cbn [bind]. destruct (C17_rotate_right c l n HV Wl Hn) as (r' & Er' & Wr' & Br').
  destruct (C17_rotate_left c r n HV Wr Hn) as (l' & El' & Wl' & Bl'). rewrite Er', El'.
  assert (forall a b, wf a -> wf b -> (forall i, 0 <= i < BITS -> Z.testbit (uval a) i = Z.testbit (uval b) i) -> a = b) as Ext.
  { intros a b Ha Hb H0. apply (uval_inj HV); auto. apply Z.bits_inj'. intros i Hi. destruct (Z.lt_ge_cases i BITS); [apply H0; lia|].
    rewrite !testbit_lt with (b := BITS); auto; apply (uval_range HV); auto. }
  split; f_equal; apply Ext; auto; intros i Hi.
  - rewrite Br' by auto. apply Bl. auto.
  - assert (Hm : 0 <= (i - n) mod BITS < BITS) by (apply Z.mod_pos_bound; lia). specialize (Bl' ((i - n) mod BITS) Hm).
    rewrite (Br ((i - n) mod BITS)) in Bl' by auto. rewrite Zplus_mod_idemp_l in Bl'. rewrite Z.sub_add in Bl'.
    rewrite (Z.mod_small i) in Bl' by lia. exact Bl'.
Qed.
Example C17_ex : @rotate_left c256_32 (E32 (2 ^ 255 + 3)) 257 = Ok (E32 7) /\ @rotate_right c256_64 (E64 7) 1 = Ok (E64 (2 ^ 255 + 3)).
Proof. vm_compute. auto. Qed.

(** ** C18: bit counting *)

Theorem C18_count_ones : forall (c : Cfg) x, Valid -> wf x -> count_ones x = Ok (bit_count BITS (uval x) true).
Proof. intros c x HV Hx. rewrite bit_count_ones. exact (count_ones_ok HV x Hx). Qed.
Theorem C18_count_zeros : forall (c : Cfg) x, Valid -> wf x -> count_zeros x = Ok (bit_count BITS (uval x) false).
Proof. intros c x HV Hx. exact (count_zeros_ok HV x Hx). Qed.
Theorem C18_leading_zeros : forall (c : Cfg) x, Valid -> wf x -> exists r, leading_zeros x = Ok r /\ run_top BITS (uval x) false r.
Proof.
  intros c x HV Hx. rewrite (leading_zeros_ok HV) by auto. eexists. split; [reflexivity|].
  apply lz_run; [apply (BITS_nonneg HV)|apply (uval_range HV); auto].
Qed.
Theorem C18_trailing_zeros : forall (c : Cfg) x, Valid -> wf x -> exists r, trailing_zeros x = Ok r /\ run_bot BITS (uval x) false r.
Proof.
  intros c x HV Hx. destruct (trailing_zeros_ok HV x Hx) as (r & E & T). exists r. split; auto.
  apply tz_run; [apply (BITS_nonneg HV)|auto].
Qed.
Theorem C18_leading_ones : forall (c : Cfg) x, Valid -> wf x -> exists r, leading_ones x = Ok r /\ run_top BITS (uval x) true r.
Proof. intros c x HV Hx. exact (leading_ones_ok HV x Hx). Qed.
Theorem C18_trailing_ones : forall (c : Cfg) x, Valid -> wf x -> exists r, trailing_ones x = Ok r /\ run_bot BITS (uval x) true r.
Proof. intros c x HV Hx. exact (trailing_ones_ok HV x Hx). Qed.
(** The runs are unique, so the statements above determine the results. *)
Theorem C18_runs_unique : forall b v t r r',
  (run_top b v t r -> run_top b v t r' -> r = r') /\ (run_bot b v t r -> run_bot b v t r' -> r = r').
Proof. intros. split; [apply run_top_unique|apply run_bot_unique]. Qed.
Example C18_ex1 : @count_ones c256_64 (E64 (2 ^ 200 + 12)) = Ok 3 /\ @count_zeros c256_64 (E64 (2 ^ 200 + 12)) = Ok 253
  /\ @leading_zeros c256_64 (E64 (2 ^ 200 + 12)) = Ok 55 /\ @trailing_zeros c256_64 (E64 (2 ^ 200 + 12)) = Ok 2.
Proof. vm_compute. auto. Qed.
Example C18_ex2 : @leading_ones c256_32 (E32 (- 2 ^ 100)) = Ok 156 /\ @trailing_ones c256_32 (E32 (2 ^ 70 - 1)) = Ok 70
  /\ @leading_ones c256_32 (E32 (-1)) = Ok 256 /\ @leading_zeros c256_32 (E32 0) = Ok 256 /\ @trailing_zeros c256_32 (E32 0) = Ok 256.
Proof. vm_compute. auto 10. Qed.

(** ** C19: bitwise operators *)

Theorem C19_bitwise : forall (c : Cfg) x y, Valid -> wf x -> wf y ->
  exists a o e n, bitand_const x y = Ok a /\ bitor_const x y = Ok o /\ bitxor_const x y = Ok e /\ not_const x = Ok n /\
    wf a /\ wf o /\ wf e /\ wf n /\
    forall i, 0 <= i < BITS ->
      Z.testbit (uval a) i = Z.testbit (uval x) i && Z.testbit (uval y) i /\
      Z.testbit (uval o) i = Z.testbit (uval x) i || Z.testbit (uval y) i /\
      Z.testbit (uval e) i = xorb (Z.testbit (uval x) i) (Z.testbit (uval y) i) /\
      Z.testbit (uval n) i = negb (Z.testbit (uval x) i).
Proof.
  intros c x y HV Hx Hy. rewrite (bitand_ok HV), (bitor_ok HV), (bitxor_ok HV), (not_const_ok HV) by auto.
  eexists _, _, _, _. do 4 (split; [reflexivity|]). do 4 (split; [apply (wf_ofZ HV)|]). intros i Hi.
  rewrite (not_bits HV) by auto. rewrite !(uval_ofZ HV), !testbit_mod by lia. destruct (Z.ltb_spec i BITS); [|lia].
  rewrite Z.land_spec, Z.lor_spec, Z.lxor_spec. auto.
Qed.
Theorem C19_not_signed : forall (c : Cfg) x, Valid -> wf x -> returns_s (not_const x) (- sval x - 1).
Proof.
  intros c x HV Hx. apply (retS1 HV).
  - rewrite (not_const_ok HV) by auto. f_equal. destruct (val_cong HV true x Hx) as (k & E). cbn [val] in E. rewrite E.
    apply (ofZ_cong HV) with (k := k). ring.
  - pose proof (sval_range HV x Hx). red. lia.
Qed.
Theorem C19_signed : forall (c : Cfg) x y, Valid -> wf x -> wf y ->
  returns_s (bitand_const x y) (Z.land (sval x) (sval y)) /\ returns_s (bitor_const x y) (Z.lor (sval x) (sval y)) /\
  returns_s (bitxor_const x y) (Z.lxor (sval x) (sval y)).
Proof.
  intros c x y HV Hx Hy. pose proof (BITS_pos HV). pose proof (sval_range HV x Hx) as Rx. pose proof (sval_range HV y Hy) as Ry.
  split; [|split]; apply (retS1 HV).
  - rewrite (bitand_ok HV), (ofZ_land_s HV) by auto. auto.
  - apply land_fits_s; auto.
  - rewrite (bitor_ok HV), (ofZ_lor_s HV) by auto. auto.
  - apply lor_fits_s; auto.
  - rewrite (bitxor_ok HV), (ofZ_lxor_s HV) by auto. auto.
  - apply lxor_fits_s; auto.
Qed.
Example C19_ex : @bitand_const c256_64 (E64 (2 ^ 200 + 12)) (E64 (-4)) = Ok (E64 (2 ^ 200 + 12))
  /\ @bitor_const c256_64 (E64 (2 ^ 200 + 12)) (E64 3) = Ok (E64 (2 ^ 200 + 15))
  /\ @bitxor_const c256_32 (E32 (2 ^ 200 + 12)) (E32 (2 ^ 200 + 10)) = Ok (E32 6) /\ @not_const c256_32 (E32 41) = Ok (E32 (-42)).
Proof. vm_compute. auto. Qed.

(** ** C21: comparison *)

Theorem C21_cmp_unsigned : forall (c : Cfg) x y, Valid -> wf x -> wf y -> cmp_const false x y = Ok (uval x ?= uval y).
Proof. intros c x y HV Hx Hy. rewrite (cmp_const_ok HV) by auto. reflexivity. Qed.
Theorem C21_cmp_signed : forall (c : Cfg) x y, Valid -> wf x -> wf y -> cmp_const true x y = Ok (sval x ?= sval y).
Proof. intros c x y HV Hx Hy. rewrite (cmp_const_ok HV) by auto. reflexivity. Qed.
Theorem C21_order_unsigned : forall (c : Cfg) x y, Valid -> wf x -> wf y ->
  lt_const false x y = Ok (uval x <? uval y) /\ le_const false x y = Ok (uval x <=? uval y) /\
  gt_const false x y = Ok (uval y <? uval x) /\ ge_const false x y = Ok (uval y <=? uval x).
Proof.
  intros c x y HV Hx Hy. rewrite (lt_const_ok HV), (le_const_ok HV), (gt_const_ok HV), (ge_const_ok HV) by auto. auto.
Qed.
Theorem C21_order_signed : forall (c : Cfg) x y, Valid -> wf x -> wf y ->
  lt_const true x y = Ok (sval x <? sval y) /\ le_const true x y = Ok (sval x <=? sval y) /\
  gt_const true x y = Ok (sval y <? sval x) /\ ge_const true x y = Ok (sval y <=? sval x).
Proof.
  intros c x y HV Hx Hy. rewrite (lt_const_ok HV), (le_const_ok HV), (gt_const_ok HV), (ge_const_ok HV) by auto. auto.
Qed.
(** Both equalities (the const method and the derived [PartialEq]) are value
    equality, for either reading. *)
Theorem C21_eq : forall (c : Cfg) x y, Valid -> wf x -> wf y ->
  eq_const x y = Ok (uval x =? uval y) /\ derived_eq x y = (uval x =? uval y) /\ (uval x = uval y <-> sval x = sval y).
Proof.
  intros c x y HV Hx Hy. rewrite (eq_const_ok HV), (derived_eq_ok HV) by auto. split; auto. split; auto.
  split; intro E; [rewrite (uval_inj HV x y Hx Hy E)|rewrite (sval_inj HV x y Hx Hy E)]; auto.
Qed.
Example C21_ex1 : @cmp_const c256_64 false (E64 (-1)) (E64 1) = Ok Gt /\ @cmp_const c256_64 true (E64 (-1)) (E64 1) = Ok Lt.
Proof. vm_compute. auto. Qed.
Example C21_ex2 : @lt_const c256_32 true (E32 (- 2 ^ 255)) (E32 (2 ^ 32)) = Ok true /\ @le_const c256_32 false (E32 7) (E32 7) = Ok true
  /\ @gt_const c384_64 true (E384 (2 ^ 64)) (E384 (2 ^ 64 - 1)) = Ok true /\ @ge_const c384_64 true (E384 (-5)) (E384 3) = Ok false
  /\ @eq_const c512_32 (E512 (2 ^ 300)) (E512 (2 ^ 300)) = Ok true.
Proof. vm_compute. auto 10. Qed.

(** ** C24: conversion from primitive integers (the value part of both reading modes) *)

Theorem C24_from_unsigned : forall (c : Cfg) v, Valid ->
  (fits_u 8 v -> returns_u (from_u8 v) v /\ returns_s (from_u8 v) v) /\
  (fits_u 16 v -> returns_u (from_u16 v) v /\ returns_s (from_u16 v) v) /\
  (fits_u 32 v -> returns_u (from_u32 v) v /\ returns_s (from_u32 v) v) /\
  (fits_u 64 v -> returns_u (from_u64 v) v /\ returns_s (from_u64 v) v) /\
  (fits_u 128 v -> returns_u (from_u128 v) v /\ returns_s (from_u128 v) v) /\
  (fits_u W v -> returns_u (from_ulimb v) v /\ returns_s (from_ulimb v) v) /\
  (fits_u (2 * W) v -> returns_u (from_uwide v) v /\ returns_s (from_uwide v) v).
Proof.
  intros c v HV.
  assert (S : forall w m, 0 <= w <= 128 -> fits_u w v -> m = Ok (ofZ v) -> returns_u m v /\ returns_s m v).
  { intros w m Hw F E. assert (0 <= v < 2 ^ 255).
    { destruct F as (F1 & F2). split; auto. apply Z.lt_le_trans with (2 ^ w); auto. apply Z.pow_le_mono_r; lia. }
    split; [apply (retU1 HV); auto; apply (fits_small HV false)|apply (retS1 HV); auto; apply (fits_small HV true)]; auto. }
  pose proof (W_cases HV) as HW.
  repeat split; intros;
  match goal with
  | F : fits_u ?w _ |- returns_u ?m _ => assert (returns_u m v /\ returns_s m v) as (X & _); [apply (S w)|exact X]
  | F : fits_u ?w _ |- returns_s ?m _ => assert (returns_u m v /\ returns_s m v) as (_ & X); [apply (S w)|exact X]
  end; auto; try lia;
  auto using (from_u8_ok HV), (from_u16_ok HV), (from_u32_ok HV), (from_u64_ok HV), (from_u128_ok HV), (from_ulimb_ok HV), (from_uwide_ok HV).
Qed.
Theorem C24_from_signed : forall (c : Cfg) v, Valid ->
  (fits_s 8 v -> returns_s (from_i8 v) v /\ returns_u (from_i8 v) (v mod 2 ^ BITS)) /\
  (fits_s 16 v -> returns_s (from_i16 v) v /\ returns_u (from_i16 v) (v mod 2 ^ BITS)) /\
  (fits_s 32 v -> returns_s (from_i32 v) v /\ returns_u (from_i32 v) (v mod 2 ^ BITS)) /\
  (fits_s 64 v -> returns_s (from_i64 v) v /\ returns_u (from_i64 v) (v mod 2 ^ BITS)) /\
  (fits_s 128 v -> returns_s (from_i128 v) v /\ returns_u (from_i128 v) (v mod 2 ^ BITS)) /\
  (fits_s W v -> returns_s (from_ilimb v) v /\ returns_u (from_ilimb v) (v mod 2 ^ BITS)) /\
  (fits_s (2 * W) v -> returns_s (from_iwide v) v /\ returns_u (from_iwide v) (v mod 2 ^ BITS)).
Proof.
  intros c v HV.
  assert (S : forall w m, 1 <= w <= 128 -> fits_s w v -> m = Ok (ofZ v) -> returns_s m v /\ returns_u m (v mod 2 ^ BITS)).
  { intros w m Hw F E. split; [apply (retS1 HV); auto|apply (retU HV); auto]. pose proof (BITS_ge HV).
    assert (2 ^ (w - 1) <= 2 ^ (BITS - 1)) by (apply Z.pow_le_mono_r; lia). red in F |- *. lia. }
  pose proof (W_cases HV) as HW.
  repeat split; intros;
  match goal with
  | F : fits_s ?w _ |- returns_s ?m _ => assert (returns_s m v /\ returns_u m (v mod 2 ^ BITS)) as (X & _); [apply (S w)|exact X]
  | F : fits_s ?w _ |- returns_u ?m _ => assert (returns_s m v /\ returns_u m (v mod 2 ^ BITS)) as (_ & X); [apply (S w)|exact X]
  end; auto; try lia;
  auto using (from_i8_ok HV), (from_i16_ok HV), (from_i32_ok HV), (from_i64_ok HV), (from_i128_ok HV), (from_ilimb_ok HV), (from_iwide_ok HV).
Qed.
Theorem C24_from_bool_char : forall (c : Cfg), Valid ->
  (forall b : bool, returns_u (from_bool b) (if b then 1 else 0)) /\
  (forall ch, 0 <= ch < 1114112 -> returns_u (from_char ch) ch).
Proof.
  intros c HV. split.
  - intros b. apply (retU1 HV); [rewrite (from_bool_ok HV); destruct b; reflexivity|]. apply (fits_small HV false). destruct b; lia.
  - intros ch H. apply (C24_from_unsigned c ch HV). red. lia.
Qed.
Example C24_ex1 : @from_u128 c256_32 (2 ^ 128 - 1) = Ok (E32 (2 ^ 128 - 1)) /\ @from_u64 c256_32 (2 ^ 63) = Ok (E32 (2 ^ 63)).
Proof. vm_compute. auto. Qed.
Example C24_ex2 : @from_i128 c256_64 (- 2 ^ 127) = Ok (E64 (- 2 ^ 127)) /\ @from_i8 c384_64 (-1) = Ok (E384 (-1)) /\ @from_iwide c256_32 (-7) = Ok (E32 (-7)).
Proof. vm_compute. auto. Qed.
Example C24_ex3 : @from_bool c256_64 true = Ok (E64 1) /\ @from_char c256_64 1114111 = Ok (E64 1114111).
Proof. vm_compute. auto. Qed.

(** ** C25: conversion to primitive integers *)

Theorem C25_as_unsigned_prims : forall (c : Cfg) x, Valid -> wf x ->
  as_u8 x = Ok (uval x mod 2 ^ 8) /\ as_u16 x = Ok (uval x mod 2 ^ 16) /\ as_u32 x = Ok (uval x mod 2 ^ 32) /\
  as_u64 x = Ok (uval x mod 2 ^ 64) /\ as_u128 x = Ok (uval x mod 2 ^ 128) /\ as_ulimb x = Ok (uval x mod 2 ^ W) /\
  as_uwide x = Ok (uval x mod 2 ^ (2 * W)).
Proof.
  intros c x HV Hx. rewrite (as_u8_ok HV), (as_u16_ok HV), (as_u32_ok HV), (as_u64_ok HV), (as_u128_ok HV), (as_ulimb_ok HV), (as_uwide_ok HV) by auto.
  auto 10.
Qed.
Theorem C25_as_signed_prims : forall (c : Cfg) x, Valid -> wf x ->
  as_i8 x = Ok (swrap 8 (uval x)) /\ as_i16 x = Ok (swrap 16 (uval x)) /\ as_i32 x = Ok (swrap 32 (uval x)) /\
  as_i64 x = Ok (swrap 64 (uval x)) /\ as_i128 x = Ok (swrap 128 (uval x)) /\ as_ilimb x = Ok (swrap W (uval x)) /\
  as_iwide x = Ok (swrap (2 * W) (uval x)).
Proof.
  intros c x HV Hx. rewrite (as_i8_ok HV), (as_i16_ok HV), (as_i32_ok HV), (as_i64_ok HV), (as_i128_ok HV), (as_ilimb_ok HV), (as_iwide_ok HV) by auto.
  auto 10.
Qed.
(** The same residues are obtained from the signed value. *)
Theorem C25_from_signed_value : forall (c : Cfg) x b, Valid -> wf x -> 1 <= b <= 128 ->
  uval x mod 2 ^ b = sval x mod 2 ^ b /\ swrap b (uval x) = swrap b (sval x).
Proof.
  intros c x b HV Hx Hb. pose proof (BITS_ge HV). split; [apply (mod_val HV true)|apply (swrap_val HV true)]; auto; lia.
Qed.
(** Reinterpretation between the big types. *)
Theorem C25_reinterpret : forall (c : Cfg) x, Valid -> wf x ->
  returns_s (as_signed x) (swrap BITS (uval x)) /\ returns_u (as_unsigned x) (sval x mod 2 ^ BITS) /\
  returns_s (from_unsigned x) (swrap BITS (uval x)) /\ returns_u (from_signed x) (sval x mod 2 ^ BITS) /\
  as_signed x = Ok x /\ as_unsigned x = Ok x.
Proof.
  intros c x HV Hx. unfold as_signed, as_unsigned, from_unsigned, from_signed. rewrite (mk_ok HV).
  assert (A : returns_s (Ok x) (swrap BITS (uval x))) by (exists x; split; auto; split; auto; rewrite (sval_swrap HV); auto).
  assert (B : returns_u (Ok x) (sval x mod 2 ^ BITS)) by (exists x; split; auto; split; auto; rewrite (sval_mod HV); auto).
  auto 10.
Qed.
Theorem C25_parity : forall (c : Cfg) x, Valid -> wf x -> is_even x = Ok (Z.even (uval x)) /\ is_odd x = Ok (Z.odd (uval x)).
Proof.
  intros c x HV Hx. unfold is_odd. rewrite (is_even_ok HV) by auto. cbn [bind]. rewrite Z.negb_even. auto.
Qed.
Example C25_ex1 : @as_u128 c256_32 (E32 (-1)) = Ok (2 ^ 128 - 1) /\ @as_u8 c256_64 (E64 (2 ^ 200 + 511)) = Ok 255.
Proof. vm_compute. auto. Qed.
Example C25_ex2 : @as_i64 c256_32 (E32 (-3)) = Ok (-3) /\ @as_i16 c384_64 (E384 40000) = Ok (-25536) /\ @as_signed c256_64 (E64 (2 ^ 255)) = Ok (E64 (- 2 ^ 255)).
Proof. vm_compute. auto. Qed.
Example C25_ex3 : is_odd (E64 (-3)) = Ok true.
Proof. vm_compute. auto. Qed.

(** ** C37: powers of two *)

Theorem C37_is_power_of_two : forall (c : Cfg) x, Valid -> wf x ->
  exists b, is_power_of_two x = Ok b /\ (b = true <-> exists k, 0 <= k /\ uval x = 2 ^ k).
Proof. intros c x HV Hx. exact (is_power_of_two_ok HV x Hx). Qed.
(** [p] is the least power of two that is at least [v]. *)
Definition least_pow2 (v p : Z) : Prop :=
  (exists k, 0 <= k /\ p = 2 ^ k) /\ v <= p /\ forall j, 0 <= j -> v <= 2 ^ j -> p <= 2 ^ j.
Theorem C37_next_power_of_two : forall (c : Cfg) x, Valid -> wf x -> exists p, least_pow2 (uval x) p /\
  returns_u_opt (checked_next_power_of_two x) (fits_u BITS p) p /\
  returns_u (wrapping_next_power_of_two x) (if p <? 2 ^ BITS then p else 0) /\
  (chk = true -> returns_u_or_panics (next_power_of_two x) (fits_u BITS p) p) /\
  (chk = false -> returns_u (next_power_of_two x) (if p <? 2 ^ BITS then p else 0)).
Proof.
  intros c x HV Hx. pose proof (uval_range HV x Hx) as R. exists (2 ^ Z.log2_up (uval x)).
  destruct (log2_up_least (uval x)) as (L1 & L2 & L3); [lia|]. split; [split; [eexists; split; [exact L1|reflexivity]|auto]|].
  split; [apply (optU HV), (checked_next_power_of_two_ok HV); auto|].
  assert (E : 2 ^ Z.log2_up (uval x) mod 2 ^ BITS = if 2 ^ Z.log2_up (uval x) <? 2 ^ BITS then 2 ^ Z.log2_up (uval x) else 0).
  { pose proof (BITS_pos HV). destruct (Z.ltb_spec (2 ^ Z.log2_up (uval x)) (2 ^ BITS)) as [L|L].
    - apply Z.mod_small. split; auto. apply Z.pow_nonneg. lia.
    - assert (2 ^ Z.log2_up (uval x) <= 2 ^ BITS) by (apply L3; lia).
      replace (2 ^ Z.log2_up (uval x)) with (2 ^ BITS) by lia. apply Z.mod_same. lia. }
  split; [rewrite <- E; apply (retU HV), (wrapping_next_power_of_two_ok HV); auto|].
  destruct (opU HV _ _ (next_power_of_two_ok HV x Hx)) as (A & B). rewrite E in B. auto.
Qed.
Example C37_ex : @is_power_of_two c256_64 (E64 (2 ^ 130)) = Ok true /\ @is_power_of_two c256_64 (E64 (2 ^ 130 + 2 ^ 64)) = Ok false
  /\ @checked_next_power_of_two c256_64 (E64 (2 ^ 130 + 1)) = Ok (Some (E64 (2 ^ 131)))
  /\ @checked_next_power_of_two c256_64 (E64 (2 ^ 255 + 1)) = Ok None /\ @next_power_of_two c256_64 (E64 (2 ^ 255 + 1)) = Panic
  /\ @next_power_of_two c512_32 (E512 (2 ^ 511 + 1)) = Ok (E512 0).
Proof. vm_compute. auto 10. Qed.

(** ** C45: shift operators

    [ps], [pw]: signedness and width of the primitive amount type.  Full
    statement: with checks on, panic iff the amount is outside [0, BITS).  It
    holds for every amount type that can represent BITS, i.e. all but the 8-bit
    ones for most widths ([u8] below 256 bits does not occur): *)

Lemma shr_returns {c : Cfg} : Valid -> forall x k, wf x -> 0 <= k < BITS ->
  returns_u (Ok (ofZ (val false x / 2 ^ k))) (uval x / 2 ^ k) /\ returns_s (Ok (ofZ (val true x / 2 ^ k))) (sval x / 2 ^ k).
Proof.
  intros HV x k Hx Hk. pose proof (BITS_lt31 HV). assert (R : 0 <= k < 2 ^ 32) by lia.
  pose proof (C16_wrapping_shr_u c x k HV Hx R) as A. pose proof (C16_wrapping_shr_s c x k HV Hx R) as B.
  rewrite (wrapping_shr_ok HV) in A, B by auto. rewrite Z.mod_small in A, B by lia. auto.
Qed.
Theorem C45_shl_partial : forall (c : Cfg) (ps : bool) pw x o, Valid -> wf x -> 1 <= pw ->
  BITS < 2 ^ (if ps then pw - 1 else pw) ->
  (chk = true -> returns_u_or_panics (op_shl ps pw x o) (0 <= o < BITS) ((uval x * 2 ^ o) mod 2 ^ BITS)) /\
  (chk = false -> returns_u (op_shl ps pw x o) ((uval x * 2 ^ (o mod 2 ^ 32 mod BITS)) mod 2 ^ BITS)).
Proof.
  intros c ps pw x o HV Hx Hp Hw. rewrite (op_shl_ok HV) by auto. rewrite shift_ok_wide by auto. split; intros ->; cbn [andb].
  - destruct (Z.ltb_spec o BITS), (Z.leb_spec 0 o); cbn [andb negb]; try (right; split; [lia|reflexivity]).
    left. split; [lia|]. rewrite (amount_exact HV) by lia. apply (retU HV). auto.
  - apply (retU HV). auto.
Qed.
Theorem C45_shr_partial : forall (c : Cfg) (ps : bool) pw x o, Valid -> wf x -> 1 <= pw ->
  BITS < 2 ^ (if ps then pw - 1 else pw) ->
  (chk = true -> returns_u_or_panics (op_shr false ps pw x o) (0 <= o < BITS) (uval x / 2 ^ o) /\
                 returns_s_or_panics (op_shr true ps pw x o) (0 <= o < BITS) (sval x / 2 ^ o)) /\
  (chk = false -> returns_u (op_shr false ps pw x o) (uval x / 2 ^ (o mod 2 ^ 32 mod BITS)) /\
                  returns_s (op_shr true ps pw x o) (sval x / 2 ^ (o mod 2 ^ 32 mod BITS))).
Proof.
  intros c ps pw x o HV Hx Hp Hw. rewrite !(op_shr_ok HV) by auto. rewrite shift_ok_wide by auto. split; intros ->; cbn [andb].
  - destruct (Z.ltb_spec o BITS), (Z.leb_spec 0 o); cbn [andb negb]; try (split; right; (split; [lia|reflexivity])).
    rewrite (amount_exact HV) by lia. destruct (shr_returns HV x o Hx) as (A & B); [lia|]. split; left; (split; [lia|]); auto.
  - apply (shr_returns HV); auto. pose proof (BITS_pos HV). apply Z.mod_pos_bound. lia.
Qed.
(** Amount types that hold BITS: every type of at least 32 bits. *)
Theorem C45_amount_types : forall (c : Cfg) (ps : bool) pw, Valid -> 32 <= pw -> BITS < 2 ^ (if ps then pw - 1 else pw).
Proof.
  intros c ps pw HV Hp. pose proof (BITS_lt31 HV). apply Z.lt_le_trans with (2 ^ 31); auto. apply Z.pow_le_mono_r; [lia|].
  destruct ps; lia.
Qed.
(** With 8-bit amounts a 256-bit value cannot be shifted at all when checks are
    on: [256 as u8 == 0]. *)
Theorem C45_shl_u8_refuted : exists (c : Cfg) x o, Valid /\ wf x /\ 0 <= o < 256 /\ chk = true /\ BITS = 256 /\
  o < BITS /\ op_shl false 8 x o = Panic /\ op_shr false false 8 x o = Panic /\ op_shl true 8 x o = Panic.
Proof.
  exists c256_64, (E64 1), 1. split; [apply valid_c256_64|]. split; [apply wf_ofZ, valid_c256_64|].
  repeat split; try lia; vm_compute; reflexivity.
Qed.
Theorem C45_u8_always_panics : forall (c : Cfg) x o (ps : bool), Valid -> wf x -> chk = true -> BITS mod 2 ^ 8 = 0 ->
  op_shl ps 8 x o = Panic /\ (forall sg, op_shr sg ps 8 x o = Panic).
Proof.
  intros c x o ps HV Hx Hc H8.
  assert (E : shift_ok ps 8 o = false).
  { unfold shift_ok. assert (swrap 8 BITS = 0) as E8. { rewrite <- scast_mod, H8 by lia. reflexivity. }
    rewrite E8, H8. replace (if ps then 0 else 0) with 0 by (destruct ps; auto).
    destruct (Z.ltb_spec o 0), (Z.leb_spec 0 o); auto; lia. }
  split; [|intro sg]; rewrite ?(op_shl_ok HV), ?(op_shr_ok HV) by (auto; lia); rewrite Hc, E; reflexivity.
Qed.
(** Amounts given as a big integer of the other signedness are checked exactly. *)
Theorem C45_shl_big : forall (c : Cfg) (ps : bool) x o, Valid -> wf x -> wf o ->
  (chk = true -> returns_u_or_panics (op_shl_big ps x o) (0 <= (if ps then sval o else uval o) < BITS)
     ((uval x * 2 ^ (if ps then sval o else uval o)) mod 2 ^ BITS)) /\
  (chk = false -> returns_u (op_shl_big ps x o) ((uval x * 2 ^ (uval o mod 2 ^ 32 mod BITS)) mod 2 ^ BITS)).
Proof.
  intros c ps x o HV Hx Ho. rewrite (op_shl_big_ok HV) by auto. split; intros ->; cbn [andb].
  - change (if ps then sval o else uval o) with (val ps o).
    destruct (Z.ltb_spec (val ps o) BITS), (Z.leb_spec 0 (val ps o)); cbn [andb negb]; try (right; split; [lia|reflexivity]).
    left. split; [lia|]. assert (uval o = val ps o) as ->.
    { destruct ps; auto. cbn [val] in *. rewrite (sval_uval o) in *. destruct (uval o <? 2 ^ (BITS - 1)); auto.
      pose proof (uval_range HV o Ho). lia. }
    rewrite (amount_exact HV) by lia. apply (retU HV). auto.
  - apply (retU HV). auto.
Qed.
Theorem C45_shr_big : forall (c : Cfg) (ps : bool) x o, Valid -> wf x -> wf o ->
  (chk = true -> returns_u_or_panics (op_shr_big false ps x o) (0 <= (if ps then sval o else uval o) < BITS)
                   (uval x / 2 ^ (if ps then sval o else uval o)) /\
                 returns_s_or_panics (op_shr_big true ps x o) (0 <= (if ps then sval o else uval o) < BITS)
                   (sval x / 2 ^ (if ps then sval o else uval o))) /\
  (chk = false -> returns_u (op_shr_big false ps x o) (uval x / 2 ^ (uval o mod 2 ^ 32 mod BITS)) /\
                  returns_s (op_shr_big true ps x o) (sval x / 2 ^ (uval o mod 2 ^ 32 mod BITS))).
Proof.
  intros c ps x o HV Hx Ho. rewrite !(op_shr_big_ok HV) by auto. split; intros ->; cbn [andb].
  - change (if ps then sval o else uval o) with (val ps o).
    destruct (Z.ltb_spec (val ps o) BITS), (Z.leb_spec 0 (val ps o)); cbn [andb negb]; try (split; right; (split; [lia|reflexivity])).
    assert (uval o = val ps o) as ->.
    { destruct ps; auto. cbn [val] in *. rewrite (sval_uval o) in *. destruct (uval o <? 2 ^ (BITS - 1)); auto.
      pose proof (uval_range HV o Ho). lia. }
    rewrite (amount_exact HV) by lia. destruct (shr_returns HV x (val ps o) Hx) as (A & B); [lia|]. split; left; (split; [lia|]); auto.
  - apply (shr_returns HV); auto. pose proof (BITS_pos HV). apply Z.mod_pos_bound. lia.
Qed.
(** Amounts of the type itself are never checked; full statement would panic
    for amounts >= BITS. *)
Theorem C45_shl_self_partial : forall (c : Cfg) x o, Valid -> wf x -> wf o ->
  returns_u (op_shl_self x o) ((uval x * 2 ^ (uval o mod 2 ^ 32 mod BITS)) mod 2 ^ BITS) /\
  returns_u (op_shr_self false x o) (uval x / 2 ^ (uval o mod 2 ^ 32 mod BITS)) /\
  returns_s (op_shr_self true x o) (sval x / 2 ^ (uval o mod 2 ^ 32 mod BITS)).
Proof.
  intros c x o HV Hx Ho. split; [apply (retU HV), (op_shl_self_ok HV); auto|].
  rewrite !(op_shr_self_ok HV) by auto. apply (shr_returns HV); auto. pose proof (BITS_pos HV). apply Z.mod_pos_bound. lia.
Qed.
Theorem C45_shl_self_refuted : exists (c : Cfg) x o, Valid /\ wf x /\ wf o /\ chk = true /\ BITS <= uval o /\
  op_shl_self x o = Ok x /\ op_shr_self false x o = Ok x.
Proof.
  exists c256_64, (E64 5), (E64 256). split; [apply valid_c256_64|]. split; [apply wf_ofZ, valid_c256_64|]. split; [apply wf_ofZ, valid_c256_64|].
  split; [reflexivity|]. split; [vm_compute; discriminate|]. split; vm_compute; reflexivity.
Qed.
Example C45_ex1 : @op_shl c256_64 true 32 (E64 5) (-1) = Panic /\ @op_shl c256_64 true 32 (E64 5) 255 = Ok (E64 (2 ^ 255))
  /\ @op_shl c512_32 true 32 (E512 5) (-1) = Ok (E512 (2 ^ 511)) /\ @op_shr c384_64 true false 64 (E384 (-5)) 1 = Ok (E384 (-3))
  /\ @op_shr c384_64 true false 64 (E384 (-5)) 384 = Panic.
Proof. vm_compute. auto 10. Qed.
Example C45_ex2 : @op_shl_big c256_64 true (E64 5) (E64 (-1)) = Panic /\ @op_shl_big c256_64 false (E64 5) (E64 3) = Ok (E64 40)
  /\ @op_shl_self c256_64 (E64 5) (E64 (2 ^ 33 + 259)) = Ok (E64 40)
  /\ @op_shr_big c256_64 true false (E64 (- 41)) (E64 3) = Ok (E64 (- 6)) /\ @op_shr_big c256_32 false true (E32 41) (E32 (- 3)) = Panic.
Proof. vm_compute. auto 10. Qed.

(** ** C46: constants *)

Theorem C46_unsigned : forall (c : Cfg), Valid -> exists mn mx, u_min_value = Ok mn /\ u_max_value = Ok mx /\ wf mn /\ wf mx /\
  uval mn = 0 /\ uval mx = 2 ^ BITS - 1 /\ (forall x, wf x -> uval mn <= uval x <= uval mx) /\
  (let* one := from_u8 1 in wrapping_add false mx one) = Ok mn.
Proof.
  intros c HV. exists (ofZ 0), (ofZ (-1)). rewrite (u_min_value_ok HV), (u_max_value_ok HV). do 2 (split; [reflexivity|]).
  do 2 (split; [apply (wf_ofZ HV)|]). pose proof (pB HV). assert (E : ofZ (-1) = ofZ (2 ^ BITS - 1)) by (apply (ofZ_cong HV) with (k := -1); ring).
  assert (V0 : uval (ofZ 0) = 0) by (apply (val_ofZ_small HV false), (fits_0 HV)).
  assert (V1 : uval (ofZ (-1)) = 2 ^ BITS - 1) by (rewrite E; apply (val_ofZ_small HV false); red; cbn; red; lia).
  rewrite V0, V1. split; auto. split; auto. split; [intros x Hx; pose proof (uval_range HV x Hx); lia|].
  run. cbn [val]. rewrite ?(uval_lit HV 1) by lia. f_equal. rewrite V1. apply (ofZ_cong HV) with (k := 1). ring.
Qed.
Theorem C46_signed : forall (c : Cfg), Valid -> exists mn mx, s_min_value = Ok mn /\ s_max_value = Ok mx /\ wf mn /\ wf mx /\
  sval mn = - 2 ^ (BITS - 1) /\ sval mx = 2 ^ (BITS - 1) - 1 /\ (forall x, wf x -> sval mn <= sval x <= sval mx) /\
  (let* one := from_u8 1 in wrapping_add true mx one) = Ok mn.
Proof.
  intros c HV. exists (ofZ (lo_of true)), (ofZ (hi_of true)). rewrite (s_min_value_ok HV), (s_max_value_ok HV). do 2 (split; [reflexivity|]).
  do 2 (split; [apply (wf_ofZ HV)|]). pose proof (pBh HV) as Hp.
  assert (V0 : sval (ofZ (lo_of true)) = - 2 ^ (BITS - 1)) by (apply (val_ofZ_small HV true); red; cbn; red; lia).
  assert (V1 : sval (ofZ (hi_of true)) = 2 ^ (BITS - 1) - 1) by (apply (val_ofZ_small HV true); red; cbn; red; lia).
  rewrite V0, V1. split; auto. split; auto. split; [intros x Hx; pose proof (sval_range HV x Hx); lia|].
  rewrite (from_u8_ok HV) by (red; lia). cbn [bind]. rewrite (wrapping_add_ok HV) by apply (wf_ofZ HV). cbn [val].
  rewrite V1. assert (sval (ofZ 1) = 1) as -> by (apply (val_lit HV true); lia). f_equal. pose proof (pBhalf HV).
  apply (ofZ_cong HV) with (k := 1). cbn [lo_of]. lia.
Qed.
Theorem C46_bits : forall (c : Cfg), Valid -> tbits = Z.of_nat N * W /\ tbits mod 128 = 0 /\ 256 <= tbits /\ N = (2 * WIDE)%nat.
Proof.
  intros c HV. split; [reflexivity|]. rewrite tbits_BITS. split; [|split; [exact (BITS_ge HV)|exact (WIDE_N HV)]].
  destruct HV as (_ & (k & _ & E) & _). rewrite E. rewrite Z.mul_comm. apply Z.mod_mul. lia.
Qed.
Example C46_ex : @s_max_value c256_64 = Ok [2 ^ 64 - 1; 2 ^ 64 - 1; 2 ^ 64 - 1; 2 ^ 63 - 1] /\ @u_max_value c256_32 = Ok (repeat (2 ^ 32 - 1) 8).
Proof. vm_compute. auto. Qed.

(** ** Assumptions (each must print "Closed under the global context") *)

Print Assumptions C15_wrapping_shl.
Print Assumptions C15_checked_shl.
Print Assumptions C15_strict_shl.
Print Assumptions C15_unbounded_shl.
Print Assumptions C15_overflowing_shl.
Print Assumptions C16_wrapping_shr_u.
Print Assumptions C16_wrapping_shr_s.
Print Assumptions C16_checked_shr.
Print Assumptions C16_strict_shr.
Print Assumptions C16_unbounded_shr_u.
Print Assumptions C16_unbounded_shr_s_partial.
Print Assumptions C16_unbounded_shr_s_refuted.
Print Assumptions C16_overflowing_shr.
Print Assumptions C17_rotate_left.
Print Assumptions C17_rotate_right.
Print Assumptions C17_rotate_inverse.
Print Assumptions C18_count_ones.
Print Assumptions C18_count_zeros.
Print Assumptions C18_leading_zeros.
Print Assumptions C18_trailing_zeros.
Print Assumptions C18_leading_ones.
Print Assumptions C18_trailing_ones.
Print Assumptions C18_runs_unique.
Print Assumptions C19_bitwise.
Print Assumptions C19_not_signed.
Print Assumptions C19_signed.
Print Assumptions C21_cmp_unsigned.
Print Assumptions C21_cmp_signed.
Print Assumptions C21_order_unsigned.
Print Assumptions C21_order_signed.
Print Assumptions C21_eq.
Print Assumptions C24_from_unsigned.
Print Assumptions C24_from_signed.
Print Assumptions C24_from_bool_char.
Print Assumptions C25_as_unsigned_prims.
Print Assumptions C25_as_signed_prims.
Print Assumptions C25_from_signed_value.
Print Assumptions C25_reinterpret.
Print Assumptions C25_parity.
Print Assumptions C37_is_power_of_two.
Print Assumptions C37_next_power_of_two.
Print Assumptions C45_shl_partial.
Print Assumptions C45_shr_partial.
Print Assumptions C45_amount_types.
Print Assumptions C45_shl_u8_refuted.
Print Assumptions C45_u8_always_panics.
Print Assumptions C45_shl_big.
Print Assumptions C45_shr_big.
Print Assumptions C45_shl_self_partial.
Print Assumptions C45_shl_self_refuted.
Print Assumptions C46_unsigned.
Print Assumptions C46_signed.
Print Assumptions C46_bits.
