(** * Properties: the random tests of the array functions (C70) *)

Require Import String ZArith List Bool Lia.
From Verif Require Import Prim Spec DivSpec Facts MAdd MMul MShift MDiv MNative PShift PRet PropsMath.
Import ListNotations.
Local Open Scope Z_scope.

(** What the tests range over. *)
Definition int64 (sg : bool) : Z -> Prop := if sg then fits_s 64 else fits_u 64.
(** The test answers [true] on every input. *)
Definition native_holds (P Q : Z -> Prop) (t : native_test) : Prop := forall x y, P x -> Q y -> snd t x y = Ok true.

Section N.
Context {c : Cfg}.
Hypothesis H32 : W = 32.
Let HL : limb_widths W.
Proof. left. exact H32. Qed.

Lemma split_digits : forall x, length (split64 x) = 2%nat /\ digits 32 (split64 x) /\ lval 32 (split64 x) = x mod 2 ^ 64.
Proof.
  intros x. unfold split64, ucast. set (u := x mod 2 ^ 64).
  assert (R : 0 <= u < 2 ^ 64) by (apply Z.mod_pos_bound; lia).
  assert (D : 0 <= u / 2 ^ 32 < 2 ^ 32) by (split; [apply Z.div_pos; lia|apply Z.div_lt_upper_bound; lia]).
  assert (M : 0 <= u mod 2 ^ 32 < 2 ^ 32) by (apply Z.mod_pos_bound; lia).
  split; [reflexivity|]. rewrite (Z.mod_small (u / 2 ^ 32)) by lia. split.
  - constructor; [exact M|]. constructor; [exact D|]. constructor.
  - cbn [lval]. pose proof (Z.div_mod u (2 ^ 32)). lia.
Qed.
Lemma split_aval : forall sg x, int64 sg x -> aval 32 sg (split64 x) = x.
Proof.
  intros sg x Hx. destruct (split_digits x) as (L & _ & V). unfold aval. rewrite L, V.
  change (32 * Z.of_nat 2 - 1) with 63. change (32 * Z.of_nat 2) with 64. destruct sg; cbn [andb int64] in *.
  - unfold fits_s in Hx. change (64 - 1) with 63 in Hx. destruct (Z.lt_ge_cases x 0).
    + assert (E : x mod 2 ^ 64 = x + 2 ^ 64) by (symmetry; apply (Z.mod_unique _ _ (-1)); lia). rewrite E, (proj2 (Z.leb_le _ _)) by lia. lia.
    + rewrite Z.mod_small by lia. rewrite (proj2 (Z.leb_gt _ _)) by lia. reflexivity.
  - unfold fits_u in Hx. apply Z.mod_small. exact Hx.
Qed.
Lemma unsplit_ok : forall r v, denotes 32 2 r v -> unsplit64 r = Ok (v mod 2 ^ 64).
Proof.
  intros r v (L & D & V). destruct r as [|a [|b [|? ?]]]; try discriminate. unfold unsplit64. cbn [get nth_error bind].
  apply Forall_inv in D as Da. apply Forall_inv_tail, Forall_inv in D. change (32 * Z.of_nat 2) with 64 in V. cbn [lval] in V.
  cbv beta in Da, D. rewrite ushl_ok by lia. cbn [bind]. unfold ucast. rewrite (Z.mod_small (b * 2 ^ 32)) by lia. unfold uadd, uchk.
  destruct (in_u_reflect 64 (a + b * 2 ^ 32)) as [_|C]; [f_equal; lia|exfalso; apply C; unfold fits_u; lia].
Qed.
Lemma as64_mod : forall sg v, as64 sg (v mod 2 ^ 64) = wrap64 sg v.
Proof. intros sg v. unfold as64, wrap64, scast, ucast. destruct sg; [rewrite Z.mod_mod by lia|]; reflexivity. Qed.

Lemma same_true : forall sg m v, gives 32 2 m v -> same64 sg m v = Ok true.
Proof.
  intros sg m v (r & -> & D). unfold same64. cbn [bind]. rewrite (unsplit_ok r v D). cbn [bind]. rewrite as64_mod, Z.eqb_refl. reflexivity.
Qed.
Lemma over_iff : forall sg v, over64 sg v = true <-> ~ afits 32 sg 2 v.
Proof.
  intros sg v. unfold over64, afits. change (32 * Z.of_nat 2) with 64. rewrite negb_true_iff. destruct sg.
  - unfold in_s, fits_s. rewrite andb_false_iff, Z.leb_gt, Z.ltb_ge. lia.
  - unfold in_u, fits_u. rewrite andb_false_iff, Z.leb_gt, Z.ltb_ge. lia.
Qed.
Lemma same_flag_eq : forall sg m v p, gives_flag 32 2 m v p -> forall b, (b = true <-> p) ->
  same64_flag sg m v = Ok (eqb (over64 sg v) b).
Proof.
  intros sg m v p (r & f & -> & D & F) b Hb. unfold same64_flag. cbn [bind]. rewrite (unsplit_ok r v D). cbn [bind]. rewrite as64_mod, Z.eqb_refl.
  replace b with f; [reflexivity|]. destruct f, b; auto; intuition congruence.
Qed.
Lemma same_flag_true : forall sg m v, gives_flag 32 2 m v (~ afits 32 sg 2 v) -> same64_flag sg m v = Ok true.
Proof. intros sg m v G. rewrite (same_flag_eq _ _ _ _ G (over64 sg v)) by apply over_iff. rewrite eqb_reflx. reflexivity. Qed.

(** the facts of C69 on two 32-bit limbs *)
Ltac two x y :=
  destruct (split_digits x) as (?L & ?D & _); destruct (split_digits y) as (?L & ?D & _).
Ltac narrow G sg :=
  rewrite H32 in G; rewrite ?(split_aval sg) in G by assumption.

Lemma native_uu_holds : Forall (native_holds (fits_u 64) (fits_u 64)) native_uu.
Proof.
  assert (A : forall x y, fits_u 64 x -> fits_u 64 y ->
    gives 32 2 (add_wrapping_full (split64 x) (split64 y)) (x + y) /\
    gives_flag 32 2 (add_overflowing_full (split64 x) (split64 y)) (x + y) (~ afits 32 false 2 (x + y)) /\
    gives_flag 32 2 (sub_overflowing_full (split64 x) (split64 y)) (x - y) (~ afits 32 false 2 (x - y)) /\
    gives 32 2 (mul_wrapping_full (split64 x) (split64 y)) (x * y) /\
    gives_flag 32 2 (mul_overflowing_full (split64 x) (split64 y)) (x * y) (~ afits 32 false 2 (x * y))).
  { intros x y Hx Hy. destruct (split_digits x) as (Lx & Dx & Vx). destruct (split_digits y) as (Ly & Dy & Vy).
    rewrite Z.mod_small in Vx by exact Hx. rewrite Z.mod_small in Vy by exact Hy.
    rewrite <- H32 in Dx, Dy. assert (A2 : (2 <= length (split64 x))%nat) by lia. assert (A3 : length (split64 y) = length (split64 x)) by lia.
    destruct (C69_add_sub c false _ _ HL A2 A3 Dx Dy) as (G1 & _ & G2 & G3).
    destruct (C69_mul c (split64 x) (split64 y) HL ltac:(lia) Dx Dy) as (G4 & G5).
    rewrite H32 in *. rewrite Lx in *. change (aval 32 false (split64 x)) with (lval 32 (split64 x)) in *. change (aval 32 false (split64 y)) with (lval 32 (split64 y)) in *.
    rewrite Vx, Vy in *. auto. }
  unfold native_uu. repeat apply Forall_cons; try apply Forall_nil; intros x y Hx Hy; cbn [snd]; destruct (A x y Hx Hy) as (G1 & G2 & G3 & G4 & G5).
  - apply same_true; auto.
  - apply same_flag_true; auto.
  - apply same_flag_true; auto.
  - apply same_true; auto.
  - apply same_flag_true; auto.
  - destruct (split_digits x) as (Lx & Dx & Vx). destruct (split_digits y) as (Ly & Dy & Vy).
    rewrite Z.mod_small in Vx by exact Hx. rewrite Z.mod_small in Vy by exact Hy. rewrite <- H32 in Dx, Dy.
    destruct (C69_widening c (split64 x) (split64 y) HL ltac:(lia) ltac:(lia) Dx Dy) as (lo & hi & -> & Llo & Lhi & Dlo & Dhi & E).
    cbn [bind]. rewrite H32, Lx in *. rewrite Vx, Vy in E. change (32 * Z.of_nat 2) with 64 in E.
    assert (R : forall z, length z = 2%nat -> digits 32 z -> 0 <= lval 32 z < 2 ^ 64).
    { intros z Lz Dz. pose proof (lval_range 32 z ltac:(lia) Dz) as R. rewrite Lz in R. exact R. }
    pose proof (R lo Llo Dlo). pose proof (R hi Lhi Dhi).
    rewrite (unsplit_ok lo (lval 32 lo)) by (repeat split; auto; symmetry; apply Z.mod_small; auto). cbn [bind].
    rewrite (unsplit_ok hi (lval 32 hi)) by (repeat split; auto; symmetry; apply Z.mod_small; auto). cbn [bind].
    rewrite !Z.mod_small by auto. rewrite ushl_ok by lia. cbn [bind]. unfold ucast. unfold fits_u in Hx, Hy.
    rewrite Z.mod_small by (change (2 ^ 128) with (2 ^ 64 * 2 ^ 64); nia).
    unfold umul, uchk. destruct (in_u_reflect 128 (x * y)) as [_|C]; [|exfalso; apply C; unfold fits_u; change (2 ^ 128) with (2 ^ 64 * 2 ^ 64); nia].
    cbn [bind]. rewrite lor_add' by lia. do 2 f_equal. apply Z.eqb_eq. lia.
Qed.
Lemma native_ul_holds : Forall (native_holds (fits_u 64) (fits_u 32)) native_ul.
Proof.
  assert (A : forall x y, fits_u 64 x -> fits_u 32 y ->
    gives 32 2 (add_wrapping_limb (split64 x) y) (x + y) /\ gives 32 2 (sub_wrapping_limb (split64 x) y) (x - y) /\
    gives_flag 32 2 (add_overflowing_limb (split64 x) y) (x + y) (~ afits 32 false 2 (x + y)) /\
    gives_flag 32 2 (sub_overflowing_limb (split64 x) y) (x - y) (~ afits 32 false 2 (x - y))).
  { intros x y Hx Hy. destruct (split_digits x) as (Lx & Dx & Vx). rewrite Z.mod_small in Vx by exact Hx. rewrite <- H32 in Dx.
    assert (HS : scalar_arg false false y) by (unfold scalar_arg; rewrite H32; exact Hy).
    pose proof (C69_add_sub_scalar c false (split64 x) y HL ltac:(lia) ltac:(discriminate) Dx HS) as G.
    rewrite H32 in G. rewrite Lx, Vx in G. exact G. }
  unfold native_ul. repeat apply Forall_cons; try apply Forall_nil; intros x y Hx Hy; cbn [snd]; destruct (A x y Hx Hy) as (G1 & G2 & G3 & G4);
    first [apply same_true; assumption|apply same_flag_true; assumption].
Qed.
Lemma native_un_holds : Forall (native_holds (fits_u 64) (fits_u 32)) native_un.
Proof.
  assert (A : forall x n, fits_u 64 x -> fits_u 32 n ->
    gives 32 2 (shl_array 32 (split64 x) (n mod 64)) (x * 2 ^ (n mod 64)) /\ gives 32 2 (shr_array 32 false (split64 x) (n mod 64)) (x / 2 ^ (n mod 64)) /\
    gives 32 2 (rotl_array 32 (split64 x) n) (rotl64 x n) /\ gives 32 2 (rotr_array 32 (split64 x) n) (rotl64 x (- n))).
  { intros x n Hx Hn. destruct (split_digits x) as (Lx & Dx & Vx). rewrite Z.mod_small in Vx by exact Hx. unfold fits_u in Hn.
    pose proof (Z.mod_pos_bound n 64 ltac:(lia)).
    destruct (C69_shift c 32 false (split64 x) (n mod 64) ltac:(auto) ltac:(lia) Dx ltac:(rewrite Lx; lia)) as (G1 & G2).
    destruct (C69_rotate c 32 (split64 x) n ltac:(auto) ltac:(lia) Dx ltac:(rewrite Lx; reflexivity) ltac:(lia)) as (G3 & G4).
    change (aval 32 false (split64 x)) with (lval 32 (split64 x)) in *. rewrite Lx, Vx in *. auto. }
  unfold native_un. repeat apply Forall_cons; try apply Forall_nil; intros x y Hx Hy; cbn [snd]; destruct (A x y Hx Hy) as (G1 & G2 & G3 & G4);
    apply same_true; assumption.
Qed.
Lemma native_ss_holds : Forall (native_holds (fits_s 64) (fits_s 64)) native_ss.
Proof.
  assert (A : forall x y, fits_s 64 x -> fits_s 64 y ->
    gives 32 2 (sadd_wrapping_full (split64 x) (split64 y)) (x + y) /\ gives 32 2 (ssub_wrapping_full (split64 x) (split64 y)) (x - y) /\
    gives_flag 32 2 (sadd_overflowing_full (split64 x) (split64 y)) (x + y) (~ afits 32 true 2 (x + y)) /\
    gives_flag 32 2 (ssub_overflowing_full (split64 x) (split64 y)) (x - y) (~ afits 32 true 2 (x - y)) /\
    gives 32 2 (smul_wrapping_full (split64 x) (split64 y)) (x * y)).
  { intros x y Hx Hy. destruct (split_digits x) as (Lx & Dx & _). destruct (split_digits y) as (Ly & Dy & _).
    rewrite <- H32 in Dx, Dy. assert (A2 : (2 <= length (split64 x))%nat) by lia. assert (A3 : length (split64 y) = length (split64 x)) by lia.
    destruct (C69_add_sub c true _ _ HL A2 A3 Dx Dy) as (G1 & G2 & G3 & G4). destruct (C69_mul_signed c _ _ HL A2 A3 Dx Dy) as (G5 & _).
    rewrite H32 in *. rewrite Lx in *. rewrite !(split_aval true) in * by assumption. auto. }
  unfold native_ss. repeat apply Forall_cons; try apply Forall_nil; intros x y Hx Hy; cbn [snd]; destruct (A x y Hx Hy) as (G1 & G2 & G3 & G4 & G5);
    first [apply same_true; assumption|apply same_flag_true; assumption].
Qed.
Lemma scalar_gives : forall ss x y, fits_s 64 x -> (if ss : bool then fits_s 32 y else fits_u 32 y) ->
  gives 32 2 (sadd_scalar ss false (split64 x) y) (x + y) /\ gives 32 2 (ssub_scalar ss false (split64 x) y) (x - y) /\
  gives 32 2 (smul_scalar ss false (split64 x) y) (x * y) /\
  gives_flag 32 2 (sadd_scalar_o ss false (split64 x) y) (x + y) (~ afits 32 true 2 (x + y)) /\
  gives_flag 32 2 (ssub_scalar_o ss false (split64 x) y) (x - y) (~ afits 32 true 2 (x - y)) /\
  gives_flag 32 2 (smul_scalar_o ss false (split64 x) y) (x * y) (seen_overflow 2 (x * y)).
Proof.
  intros ss x y Hx Hy. destruct (split_digits x) as (Lx & Dx & _). rewrite <- H32 in Dx.
  assert (HS : scalar_arg ss false y) by (unfold scalar_arg; rewrite H32; destruct ss; exact Hy).
  assert (HR : scalar_room ss false (length (split64 x))) by (split; [lia|discriminate]).
  destruct (C69_signed_scalar c ss false _ y HL (proj1 HR) Dx HS) as (G1 & G2 & G3).
  destruct (C69_signed_scalar_flag c ss false _ y HL HR Dx HS) as (G4 & G5 & G6).
  rewrite H32 in *. rewrite Lx in *. rewrite !(split_aval true) in * by assumption. repeat (split; [assumption|]). assumption.
Qed.
Lemma native_su_holds : Forall (native_holds (fits_s 64) (fits_u 32)) native_su.
Proof.
  unfold native_su. repeat apply Forall_cons; try apply Forall_nil; intros x y Hx Hy; cbn [snd];
    destruct (scalar_gives false x y Hx Hy) as (G1 & G2 & G3 & G4 & G5 & _); first [apply same_true; assumption|apply same_flag_true; assumption].
Qed.
Lemma native_sl_holds : Forall (native_holds (fits_s 64) (fits_s 32)) native_sl.
Proof.
  unfold native_sl. repeat apply Forall_cons; try apply Forall_nil; intros x y Hx Hy; cbn [snd];
    destruct (scalar_gives true x y Hx Hy) as (G1 & G2 & G3 & G4 & G5 & _); first [apply same_true; assumption|apply same_flag_true; assumption].
Qed.
Lemma native_sn_holds : Forall (native_holds (fits_s 64) (fits_u 32)) native_sn.
Proof.
  assert (A : forall x n, fits_s 64 x -> fits_u 32 n ->
    gives 32 2 (shl_array 32 (split64 x) (n mod 64)) (x * 2 ^ (n mod 64)) /\ gives 32 2 (shr_array 32 true (split64 x) (n mod 64)) (x / 2 ^ (n mod 64))).
  { intros x n Hx Hn. destruct (split_digits x) as (Lx & Dx & Vx). unfold fits_u in Hn.
    pose proof (Z.mod_pos_bound n 64 ltac:(lia)).
    destruct (C69_shift c 32 true (split64 x) (n mod 64) ltac:(auto) ltac:(lia) Dx ltac:(rewrite Lx; lia)) as (G1 & G2).
    rewrite (split_aval true) in G2 by assumption. rewrite Lx in *. split; [|exact G2].
    destruct G1 as (r & E & D). exists r. split; [exact E|]. eapply denotes_cong; [|exact D]. rewrite Vx. change (32 * Z.of_nat 2) with 64.
    rewrite Z.mul_mod_idemp_l by lia. reflexivity. }
  unfold native_sn. repeat apply Forall_cons; try apply Forall_nil; intros x y Hx Hy; cbn [snd]; destruct (A x y Hx Hy) as (G1 & G2);
    apply same_true; assumption.
Qed.

(** The products that overflow unseen. *)
Definition missed64 (v : Z) : bool := (- (2 ^ 63 + 2 ^ 32) <? v) && (v <? - 2 ^ 63).
Lemma missed_eq : forall m v, gives_flag 32 2 m v (seen_overflow 2 v) -> same64_flag true m v = Ok (negb (missed64 v)).
Proof.
  intros m v G. rewrite (same_flag_eq true m v _ G ((2 ^ 63 <=? v) || (v <=? - (2 ^ 63 + 2 ^ 32)))).
  - f_equal. unfold missed64, over64, in_s. change (64 - 1) with 63.
    destruct (Z.leb_spec (2 ^ 63) v), (Z.leb_spec v (- (2 ^ 63 + 2 ^ 32))), (Z.leb_spec (- 2 ^ 63) v), (Z.ltb_spec v (2 ^ 63)),
      (Z.ltb_spec (- (2 ^ 63 + 2 ^ 32)) v), (Z.ltb_spec v (- 2 ^ 63)); cbn [andb orb negb eqb]; try reflexivity; lia.
  - unfold seen_overflow. rewrite H32. change (32 * Z.of_nat 2 - 1) with 63. change (32 * Z.of_nat 2 - 32) with 32.
    rewrite orb_true_iff, !Z.leb_le. reflexivity.
Qed.
Lemma native_mul_s_eq : forall x y, fits_s 64 x -> fits_s 64 y -> snd native_mul_s x y = Ok (negb (missed64 (x * y))).
Proof.
  intros x y Hx Hy. cbn [snd native_mul_s]. apply missed_eq.
  destruct (split_digits x) as (Lx & Dx & _). destruct (split_digits y) as (Ly & Dy & _).
  rewrite <- H32 in Dx, Dy. assert (A2 : (2 <= length (split64 x))%nat) by lia. assert (A3 : length (split64 y) = length (split64 x)) by lia.
  destruct (C69_mul_signed c _ _ HL A2 A3 Dx Dy) as (_ & G). rewrite H32 in G. rewrite Lx in G. rewrite !(split_aval true) in G by assumption. exact G.
Qed.
Lemma native_mul_ul_eq : forall x y, fits_s 64 x ->
  (fits_u 32 y -> snd native_mul_u x y = Ok (negb (missed64 (x * y)))) /\ (fits_s 32 y -> snd native_mul_l x y = Ok (negb (missed64 (x * y)))).
Proof.
  intros x y Hx. split; intros Hy; cbn [snd native_mul_u native_mul_l]; apply missed_eq.
  - apply (scalar_gives false x y Hx Hy).
  - apply (scalar_gives true x y Hx Hy).
Qed.
End N.

Section D.
Context {c : Cfg}.
Hypothesis HL : limb_widths W.
Let W32 : 32 <= W <= 64.
Proof. destruct HL as [-> | ->]; lia. Qed.
Lemma wide_pow : 2 ^ (2 * W) = 2 ^ W * 2 ^ W.
Proof. rewrite <- Z.pow_add_r by lia. f_equal. lia. Qed.
Lemma half_pos : 0 < 2 ^ W.
Proof. apply Z.pow_pos_nonneg; lia. Qed.

Lemma split_wide_ok : forall v, fits_u (2 * W) v -> exists a, split_wide v = Ok a /\ length a = 2%nat /\ digits W a /\ lval W a = v.
Proof.
  intros v Hv. unfold split_wide, fits_u in *. rewrite wide_pow in Hv. pose proof half_pos as HP. rewrite ushr_ok by lia. cbn [bind].
  assert (D : 0 <= v / 2 ^ W < 2 ^ W) by (split; [apply Z.div_pos; lia|apply Z.div_lt_upper_bound; nia]).
  assert (M : 0 <= v mod 2 ^ W < 2 ^ W) by (apply Z.mod_pos_bound; lia).
  eexists. split; [reflexivity|]. split; [reflexivity|]. unfold ucast. rewrite (Z.mod_small (v / 2 ^ W)) by lia. split.
  - constructor; [exact M|]. constructor; [exact D|]. constructor.
  - cbn [lval]. pose proof (Z.div_mod v (2 ^ W)). lia.
Qed.
Lemma join_wide_ok : forall r v, denotes W 2 r v -> fits_u (2 * W) v -> join_wide r = Ok v.
Proof.
  intros r v (L & D & V) Hv. destruct r as [|a [|b [|? ?]]]; try discriminate. unfold join_wide. cbn [get nth_error bind].
  apply Forall_inv in D as Da. apply Forall_inv_tail, Forall_inv in D. cbv beta in Da, D. replace (W * Z.of_nat 2) with (2 * W) in V by lia. cbn [lval] in V.
  unfold fits_u in Hv. rewrite Z.mod_small in V by exact Hv. pose proof half_pos as HP. rewrite wide_pow in Hv.
  rewrite ushl_ok by lia. cbn [bind]. unfold ucast. rewrite wide_pow, Z.mod_small by nia. rewrite lor_add' by lia. f_equal. lia.
Qed.
Lemma quot_fits : forall x y, fits_u (2 * W) x -> 0 < y -> fits_u (2 * W) (x / y) /\ fits_u (2 * W) (x mod y).
Proof.
  intros x y Hx Hy. unfold fits_u in *. pose proof (Z.mod_pos_bound x y Hy). pose proof (Z.mod_le x y). 
  assert (x / y <= x) by (apply Z.div_le_upper_bound; nia). pose proof (Z.div_pos x y). lia.
Qed.

Lemma uwide_div_holds : native_holds (fits_u (2 * W)) (fits_u (2 * W)) uwide_div.
Proof.
  intros x y Hx Hy. cbn [snd uwide_div]. destruct (Z.eqb_spec y 0) as [|Y0]; [reflexivity|]. cbn [negb].
  destruct (split_wide_ok x Hx) as (a & -> & La & Da & Va). destruct (split_wide_ok y Hy) as (b & -> & Lb & Db & Vb). cbn [bind].
  destruct (C69_div_two c a b HL La Lb Da Db ltac:(congruence)) as (q & r & -> & Q & R). cbn [bind]. rewrite Va, Vb in *.
  destruct (quot_fits x y Hx ltac:(unfold fits_u in Hy; lia)) as (F1 & F2).
  rewrite (join_wide_ok q _ Q F1). cbn [bind]. rewrite (join_wide_ok r _ R F2). cbn [bind]. rewrite !Z.eqb_refl. reflexivity.
Qed.
Lemma uwide_scalar_div_holds : Forall (native_holds (fits_u (2 * W)) (fits_u W)) uwide_scalar_div.
Proof.
  pose proof half_pos as HP. pose proof wide_pow as WP.
  unfold uwide_scalar_div. repeat apply Forall_cons; try apply Forall_nil; intros x y Hx Hy; cbn [snd]; (destruct (Z.eqb_spec y 0) as [|Y0]; [reflexivity|]); cbn [negb];
  destruct (split_wide_ok x Hx) as (a & -> & La & Da & Va); cbn [bind]; unfold fits_u in Hy;
  destruct (quot_fits x y Hx ltac:(lia)) as (F1 & F2).
  - pose proof (C69_div_wide c a y HL ltac:(lia) Da ltac:(nia)) as G. rewrite Va in G. rewrite (proj2 (Z.leb_gt (2 ^ W) y)) in G by lia.
    rewrite andb_false_r in G. cbn [andb] in G. destruct G as (q & -> & Q). rewrite La in Q. cbn [bind]. rewrite (join_wide_ok q _ Q F1). cbn [bind].
    rewrite !Z.eqb_refl. reflexivity.
  - destruct (C69_div_limb c a y HL ltac:(lia) Da ltac:(lia)) as (q & -> & Q). rewrite La, Va in *. cbn [bind]. rewrite (join_wide_ok q _ Q F1). cbn [bind].
    pose proof (Z.mod_pos_bound x y ltac:(lia)). unfold ucast. rewrite (Z.mod_small (x mod y)) by lia. rewrite !Z.eqb_refl. reflexivity.
Qed.
End D.

(** ** C70: the random tests of the array functions *)

(** Thirty-one of the thirty-four tests of native_math.rs pass on every input. *)
Theorem C70_native : forall c : Cfg, W = 32 ->
  Forall (native_holds (fits_u 64) (fits_u 64)) native_uu /\
  Forall (native_holds (fits_u 64) (fits_u 32)) (native_ul ++ native_un) /\
  Forall (native_holds (fits_s 64) (fits_s 64)) native_ss /\
  Forall (native_holds (fits_s 64) (fits_u 32)) (native_su ++ native_sn) /\
  Forall (native_holds (fits_s 64) (fits_s 32)) native_sl.
Proof.
  intros c H. split; [apply native_uu_holds; auto|]. split; [apply Forall_app; split; [apply native_ul_holds|apply native_un_holds]; auto|].
  split; [apply native_ss_holds; auto|]. split; [apply Forall_app; split; [apply native_su_holds|apply native_sn_holds]; auto|].
  apply native_sl_holds; auto.
Qed.
(** The other three fail exactly on the products just below the least number. *)
Theorem C70_native_mul : forall (c : Cfg) x y, W = 32 -> fits_s 64 x ->
  (fits_s 64 y -> snd native_mul_s x y = Ok (negb (missed64 (x * y)))) /\
  (fits_u 32 y -> snd native_mul_u x y = Ok (negb (missed64 (x * y)))) /\
  (fits_s 32 y -> snd native_mul_l x y = Ok (negb (missed64 (x * y)))).
Proof.
  intros c x y H Hx. split; [intros; apply native_mul_s_eq; auto|]. apply native_mul_ul_eq; auto.
Qed.
Theorem C70_native_mul_refuted : exists x y : Z, fits_s 64 x /\ fits_s 32 y /\ fits_s 64 y /\
  snd (native_mul_s (c := c256_32)) x y = Ok false /\ snd (native_mul_l (c := c256_32)) x y = Ok false /\
  exists x' y' : Z, fits_s 64 x' /\ fits_u 32 y' /\ snd (native_mul_u (c := c256_32)) x' y' = Ok false.
Proof.
  exists 3074457345618258603, (-3). split; [unfold fits_s; lia|]. split; [unfold fits_s; lia|]. split; [unfold fits_s; lia|].
  split; [vm_compute; reflexivity|]. split; [vm_compute; reflexivity|].
  exists (-3074457345618258603), 3. split; [unfold fits_s; lia|]. split; [unfold fits_u; lia|]. vm_compute. reflexivity.
Qed.
(** The three tests of div_math.rs on double-limb numbers pass on every input. *)
Theorem C70_div : forall c : Cfg, limb_widths W ->
  native_holds (fits_u (2 * W)) (fits_u (2 * W)) uwide_div /\
  Forall (native_holds (fits_u (2 * W)) (fits_u W)) uwide_scalar_div.
Proof. intros c H. split; [apply uwide_div_holds|apply uwide_scalar_div_holds]; auto. Qed.
(** The lists name 37 different tests. *)
Theorem C70_count : forall c : Cfg,
  let names := map fst (native_uu ++ native_ul ++ native_un ++ native_ss ++ native_su ++ native_sl ++ native_sn ++
                        [native_mul_s; native_mul_u; native_mul_l] ++ [uwide_div] ++ uwide_scalar_div) in
  length names = 37%nat /\ NoDup names.
Proof.
  intros c names. split; [reflexivity|]. unfold names. cbn -[In]. repeat (constructor; [cbn; intuition discriminate|]). constructor.
Qed.

Example C70_ex1 : map (fun t => snd t (2 ^ 63 + 5) (2 ^ 40 - 9)) (native_uu (c := c256_32)) = repeat (Ok true) 6 /\
  map (fun t => snd t (- 2 ^ 63 + 5) (- 2 ^ 40 - 9)) (native_ss (c := c256_32)) = repeat (Ok true) 5 /\
  map (fun t => snd t (2 ^ 63 + 5) 4294967291) (native_ul (c := c256_32) ++ native_un (c := c256_32)) = repeat (Ok true) 8.
Proof. vm_compute. auto. Qed.
Example C70_ex2 : snd (uwide_div (c := c256_64)) (2 ^ 127 + 12345) (2 ^ 70 - 3) = Ok true /\
  map (fun t => snd t (2 ^ 127 + 12345) 0x123456789) (uwide_scalar_div (c := c256_64)) = [Ok true; Ok true] /\
  snd (uwide_div (c := c256_32)) (2 ^ 63 + 12345) 0 = Ok true.
Proof. vm_compute. auto. Qed.
(** A wrong expectation is noticed. *)
Example C70_ex3 : same64 (c := c256_32) false (add_wrapping_full (c := c256_32) (split64 5) (split64 7)) 13 = Ok false /\
  same64_flag (c := c256_32) true (sadd_overflowing_full (c := c256_32) (split64 (2 ^ 63 - 1)) (split64 1)) (2 ^ 63) = Ok true /\
  missed64 (-9223372036854775809) = true /\ missed64 (- 2 ^ 63) = false.
Proof. vm_compute. auto. Qed.

(** ** Assumptions (each must print "Closed under the global context") *)

Print Assumptions C70_native.
Print Assumptions C70_native_mul.
Print Assumptions C70_native_mul_refuted.
Print Assumptions C70_div.
Print Assumptions C70_count.
