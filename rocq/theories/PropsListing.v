(** * The machine-code listings compute what the functions compute *)

Require Import ZArith List Bool Lia.
From Verif Require Import Prim Spec Facts MAdd PAdd PAddS MListing PListing.
Import ListNotations.
Local Open Scope Z_scope.

(** ** Running a listing *)

Lemma run_step : forall i t st st', step i st = Some st' -> run (i :: t) false st = run t false st'.
Proof.
  intros i t st st' H.
  assert (F : run (i :: t) false st = match step i st with Some st => run t false st | None => None end) by (destruct i; auto; discriminate).
  rewrite F, H. auto.
Qed.

Arguments put _ _ _ _ /.
Ltac see e := eval cbn [step read write put reg_eqb regs mem cf of zf flags bytes width with_flag addc subb logic shift] in e.
(** Shifts by a constant. *)
Lemma step_sar63 : forall st q, step (SAR S64 (R q) (I 63)) st =
  Some (St (put q ((signed 64 (regs st q) / 2 ^ 63) mod Q) (regs st)) (mem st) None None (Some ((signed 64 (regs st q) / 2 ^ 63) mod Q =? 0))).
Proof. reflexivity. Qed.
Lemma step_shr63 : forall st q, step (SHR S64 (R q) (I 63)) st =
  Some (St (put q ((regs st q / 2 ^ 63) mod Q) (regs st)) (mem st) None None (Some ((regs st q / 2 ^ 63) mod Q =? 0))).
Proof. reflexivity. Qed.
Ltac step1 := match goal with
  | |- run (SAR S64 (R _) (I 63) :: _) false _ = _ => rewrite (run_step _ _ _ _ (step_sar63 _ _)); cbn [regs mem put reg_eqb]
  | |- run (SHR S64 (R _) (I 63) :: _) false _ = _ => rewrite (run_step _ _ _ _ (step_shr63 _ _)); cbn [regs mem put reg_eqb]
  | |- run (?i :: ?t) false ?st = _ =>
    let e := see (step i st) in match e with Some ?s => rewrite (run_step i t st s eq_refl) end
  end.
Ltac saved := let r := fresh in let H := fresh in intros r H; cbn [In] in H;
  repeat (destruct H as [<-|H]; [reflexivity|]); destruct H.
Ltac mods := apply Z.mod_pos_bound; lia.
Ltac enter p := eapply gives_intro; [eassumption | unfold p; repeat step1; reflexivity | reflexivity | saved | cbn [mem]; reflexivity
  | mods | mods | mods | mods | ].
Ltac enterf p := eapply gives_flag_intro; [eassumption | unfold p; repeat step1; reflexivity | reflexivity | saved | cbn [mem]; rewrite ?byte_put, ?lxor_bits, ?byte_put2; reflexivity
  | mods | mods | mods | mods | ].
(** Name the limbs and record that they are in range. *)
Ltac limbs :=
  unfold xs, ys, yu; rewrite ?array4; cbn [mem regs]; change (0 mod Q) with 0 in *; cbn [MListing.b2z] in *;
  repeat match goal with |- context [load 8 ?m ?a] =>
    let x := fresh "x" in let H := fresh "H" x in
    pose proof (load8_range m a ltac:(assumption)) as H; set (x := load 8 m a) in *; clearbody x end;
  change (signed 64 0) with 0 in *; rewrite ?Z.add_0_r, ?Z.sub_0_r, ?(Z.add_comm (_ RDX)), ?(Z.add_comm (signed 64 (_ RDX))).
Ltac start st := let r := fresh "r" in let m := fresh "m" in destruct st as [r m ? ? ?];
  match goal with H : sane _ |- _ => let Hr := fresh "Hr" in let Hm := fresh "Hm" in
    pose proof (proj1 H RDX) as Hr; pose proof (proj2 H) as Hm; cbn [regs mem] in Hr, Hm end.
Ltac here := first [eassumption | apply in4_intro; assumption || lia | lia | reflexivity].

Ltac dig := cbn; try lia; apply in4_intro; auto; lia.
Lemma lval_one : forall v, lval 64 [v; 0; 0; 0] = v.
Proof. intros; cbn [lval]; lia. Qed.
Lemma lsval_one : forall k d v, 0 <= v < Q -> @lsval (x86 k d) [v; 0; 0; 0] = v.
Proof. intros. rewrite lsval4 by (apply in4_intro; lia). change (signed 64 0) with 0. lia. Qed.
Lemma top_add : forall a b f, ((a + b) mod Q + f) mod Q = (a + b + f) mod Q.
Proof. intros. apply Zplus_mod_idemp_l. Qed.
Lemma top_sub : forall a b f, ((a - b) mod Q - f) mod Q = (a - b - f) mod Q.
Proof. intros. apply Zminus_mod_idemp_l. Qed.


(** The same for a one-limb second operand. *)
Section Limb.
Variables x0 x1 x2 x3 y t0 t1 t2 t3 : Z.
Variables k d : bool.
Hypotheses (X0 : 0 <= x0 < Q) (X1 : 0 <= x1 < Q) (X2 : 0 <= x2 < Q) (X3 : 0 <= x3 < Q) (Y : 0 <= y < Q).
Let x := [x0; x1; x2; x3].
Section Add.
Hypotheses (T0 : t0 = x0 + y) (T1 : t1 = x1 + MListing.b2z (Q <=? t0))
  (T2 : t2 = x2 + MListing.b2z (Q <=? t1)) (T3 : t3 = x3 + MListing.b2z (Q <=? t2)).
Lemma add1 : [t0 mod Q; t1 mod Q; t2 mod Q; t3 mod Q] = lenc 64 4 (lval 64 x + y).
Proof. rewrite <- (lval_one y). apply add4; lia. Qed.
Lemma add1_flag : (Q <=? t3) = true <-> ~ (0 <= lval 64 x + y < 2 ^ 256).
Proof. rewrite <- (lval_one y). apply (add4_flag x0 x1 x2 x3 y 0 0 0 t0 t1 t2 t3); lia. Qed.
Lemma add1_oflag : out_of_range 64 (signed 64 x3 + MListing.b2z (Q <=? t2)) = true <-> ~ fits_s 256 (@lsval (x86 k d) x + y).
Proof. rewrite <- (lsval_one k d y), <- (Z.add_0_r (signed 64 x3)) by auto. apply (add4_oflag x0 x1 x2 x3 y 0 0 0 t0 t1 t2); lia. Qed.
End Add.
Section Sub.
Hypotheses (T0 : t0 = x0 - y) (T1 : t1 = x1 - MListing.b2z (t0 <? 0))
  (T2 : t2 = x2 - MListing.b2z (t1 <? 0)) (T3 : t3 = x3 - MListing.b2z (t2 <? 0)).
Lemma sub1 : [t0 mod Q; t1 mod Q; t2 mod Q; t3 mod Q] = lenc 64 4 (lval 64 x - y).
Proof. rewrite <- (lval_one y). apply sub4; lia. Qed.
Lemma sub1_flag : (t3 <? 0) = true <-> ~ (0 <= lval 64 x - y < 2 ^ 256).
Proof. rewrite <- (lval_one y). apply (sub4_flag x0 x1 x2 x3 y 0 0 0 t0 t1 t2 t3); lia. Qed.
Lemma sub1_oflag : out_of_range 64 (signed 64 x3 - MListing.b2z (t2 <? 0)) = true <-> ~ fits_s 256 (@lsval (x86 k d) x - y).
Proof. rewrite <- (lsval_one k d y), <- (Z.sub_0_r (signed 64 x3)) by auto. apply (sub4_oflag x0 x1 x2 x3 y 0 0 0 t0 t1 t2); lia. Qed.
End Sub.
End Limb.

(** ** Addition, unsigned *)

Theorem C98_add_full : forall k d st, sane st ->
  gives doc_add_full st (@add_wrapping_full (x86 k d) (xs st) (ys st)).
Proof.
  intros k d st H. start st. enter doc_add_full. limbs.
  rewrite (add_wrapping_full_ok (W_x86 k d)) by dig. f_equal. symmetry. eapply add4; here.
Qed.

Theorem C98_add_full_flag : forall k d st, sane st ->
  gives_flag doc_add_full_flag st (@add_overflowing_full (x86 k d) (xs st) (ys st)).
Proof.
  intros k d st H. start st. enterf doc_add_full_flag. limbs.
  match goal with |- add_overflowing_full ?a ?b = _ => destruct (add_overflowing_full_ok (W_x86 k d) a b) as (f & E & F); try dig end.
  rewrite E. clear E. f_equal. f_equal; [symmetry; eapply add4; here|]. apply (same_flag _ _ _ F). eapply add4_flag; here.
Qed.

Theorem C98_add_limb : forall k d st, sane st ->
  gives doc_add_limb st (@add_wrapping_limb (x86 k d) (xs st) (yu st)).
Proof.
  intros k d st H. start st. enter doc_add_limb. limbs.
  rewrite (add_wrapping_limb_ok (W_x86 k d)) by dig. f_equal. symmetry. eapply add1; here.
Qed.

Theorem C98_add_limb_flag : forall k d st, sane st ->
  gives_flag doc_add_limb_flag st (@add_overflowing_limb (x86 k d) (xs st) (yu st)).
Proof.
  intros k d st H. start st. enterf doc_add_limb_flag. limbs.
  match goal with |- add_overflowing_limb ?a ?b = _ => destruct (add_overflowing_limb_ok (W_x86 k d) a b) as (f & E & F); try dig end.
  rewrite E. clear E. f_equal. f_equal; [symmetry; eapply add1; here|]. apply (same_flag _ _ _ F). eapply add1_flag; here.
Qed.

(** ** Addition, signed *)

Theorem C98_sadd_full : forall k d st, sane st ->
  gives doc_sadd_full st (@sadd_wrapping_full (x86 k d) (xs st) (ys st)).
Proof.
  intros k d st H. start st. enter doc_sadd_full. limbs.
  rewrite (sadd_wrapping_full_ok (W_x86 k d)) by dig. f_equal. symmetry. eapply add4; here.
Qed.

Theorem C98_sadd_full_flag : forall k d st, sane st ->
  gives_flag doc_sadd_full_flag st (@sadd_overflowing_full (x86 k d) (xs st) (ys st)).
Proof.
  intros k d st H. start st. enterf doc_sadd_full_flag. limbs.
  match goal with |- sadd_overflowing_full ?a ?b = _ => destruct (sadd_overflowing_full_ok (W_x86 k d) a b) as (f & E & F); try dig end.
  rewrite E. clear E. f_equal. f_equal; [symmetry; rewrite top_add; eapply add4; here|]. apply (same_flag _ _ _ F). rewrite xorb_comm, xor_add by auto; eapply add4_oflag; here.
Qed.

Theorem C98_sadd_ulimb : forall k d st, sane st ->
  gives doc_sadd_ulimb st (@sadd_wrapping_ulimb (x86 k d) (xs st) (yu st)).
Proof.
  intros k d st H. start st. enter doc_sadd_ulimb. limbs.
  unfold sadd_wrapping_ulimb. rewrite (add_wrapping_limb_ok (W_x86 k d)) by dig. f_equal. symmetry. eapply add1; here.
Qed.

Theorem C98_sadd_ulimb_flag : forall k d st, sane st ->
  gives_flag doc_sadd_ulimb_flag st (@sadd_overflowing_ulimb (x86 k d) (xs st) (yu st)).
Proof.
  intros k d st H. start st. enterf doc_sadd_ulimb_flag. limbs.
  match goal with |- sadd_overflowing_ulimb ?a ?b = _ => destruct (sadd_overflowing_ulimb_ok (W_x86 k d) a b) as (f & E & F); try dig end.
  rewrite E. clear E. f_equal. f_equal; [symmetry; eapply add1; here|]. apply (same_flag _ _ _ F). eapply add1_oflag; here.
Qed.

(** ** Subtraction *)

Theorem C98_sub_full : forall k d st, sane st ->
  gives doc_sub_full st (@sub_wrapping_full (x86 k d) (xs st) (ys st)).
Proof.
  intros k d st H. start st. enter doc_sub_full. limbs.
  rewrite (sub_wrapping_full_ok (W_x86 k d)) by dig. f_equal. symmetry. eapply sub4; here.
Qed.

Theorem C98_sub_full_flag : forall k d st, sane st ->
  gives_flag doc_sub_full_flag st (@sub_overflowing_full (x86 k d) (xs st) (ys st)).
Proof.
  intros k d st H. start st. enterf doc_sub_full_flag. limbs.
  match goal with |- sub_overflowing_full ?a ?b = _ => destruct (sub_overflowing_full_ok (W_x86 k d) a b) as (f & E & F); try dig end.
  rewrite E. clear E. f_equal. f_equal; [symmetry; eapply sub4; here|]. apply (same_flag _ _ _ F). eapply sub4_flag; here.
Qed.

Theorem C98_sub_limb : forall k d st, sane st ->
  gives doc_sub_limb st (@sub_wrapping_limb (x86 k d) (xs st) (yu st)).
Proof.
  intros k d st H. start st. enter doc_sub_limb. limbs.
  rewrite (sub_wrapping_limb_ok (W_x86 k d)) by dig. f_equal. symmetry. eapply sub1; here.
Qed.

Theorem C98_sub_limb_flag : forall k d st, sane st ->
  gives_flag doc_sub_limb_flag st (@sub_overflowing_limb (x86 k d) (xs st) (yu st)).
Proof.
  intros k d st H. start st. enterf doc_sub_limb_flag. limbs.
  match goal with |- sub_overflowing_limb ?a ?b = _ => destruct (sub_overflowing_limb_ok (W_x86 k d) a b) as (f & E & F); try dig end.
  rewrite E. clear E. f_equal. f_equal; [symmetry; eapply sub1; here|]. apply (same_flag _ _ _ F). eapply sub1_flag; here.
Qed.

Theorem C98_ssub_full : forall k d st, sane st ->
  gives doc_ssub_full st (@ssub_wrapping_full (x86 k d) (xs st) (ys st)).
Proof.
  intros k d st H. start st. enter doc_ssub_full. limbs.
  unfold ssub_wrapping_full. rewrite (sub_wrapping_full_ok (W_x86 k d)) by dig. f_equal. symmetry. eapply sub4; here.
Qed.

Theorem C98_ssub_full_flag : forall k d st, sane st ->
  gives_flag doc_ssub_full_flag st (@ssub_overflowing_full (x86 k d) (xs st) (ys st)).
Proof.
  intros k d st H. start st. enterf doc_ssub_full_flag. limbs.
  match goal with |- ssub_overflowing_full ?a ?b = _ => destruct (ssub_overflowing_full_ok (W_x86 k d) a b) as (f & E & F); try dig end.
  rewrite E. clear E. f_equal. f_equal; [symmetry; rewrite top_sub; eapply sub4; here|]. apply (same_flag _ _ _ F). rewrite xorb_comm, xor_sub by auto; eapply sub4_oflag; here.
Qed.

Theorem C98_ssub_ulimb : forall k d st, sane st ->
  gives doc_ssub_ulimb st (@ssub_wrapping_ulimb (x86 k d) (xs st) (yu st)).
Proof.
  intros k d st H. start st. enter doc_ssub_ulimb. limbs.
  unfold ssub_wrapping_ulimb. rewrite (sub_wrapping_limb_ok (W_x86 k d)) by dig. f_equal. symmetry. eapply sub1; here.
Qed.

Theorem C98_ssub_ulimb_flag : forall k d st, sane st ->
  gives_flag doc_ssub_ulimb_flag st (@ssub_overflowing_ulimb (x86 k d) (xs st) (yu st)).
Proof.
  intros k d st H. start st. enterf doc_ssub_ulimb_flag. limbs.
  match goal with |- ssub_overflowing_ulimb ?a ?b = _ => destruct (ssub_overflowing_ulimb_ok (W_x86 k d) a b) as (f & E & F); try dig end.
  rewrite E. clear E. f_equal. f_equal; [symmetry; eapply sub1; here|]. apply (same_flag _ _ _ F). eapply sub1_oflag; here.
Qed.

(** ** One signed limb *)

(** The four limbs of a signed 64-bit number. *)
Definition ext (y : Z) : Z := (signed 64 y / 2 ^ 63) mod Q.
Lemma ext_cases : forall y, 0 <= y < Q -> (0 <= signed 64 y /\ signed 64 y = y /\ ext y = 0) \/ (signed 64 y < 0 /\ signed 64 y = y - Q /\ ext y = Q - 1).
Proof.
  intros y H. pose proof (signed_cases y H) as C. unfold ext.
  destruct C as [(L & ->)|(L & ->)]; [left|right].
  - rewrite Z.div_small by lia. cbn. lia.
  - replace ((y - Q) / 2 ^ 63) with (-1); [cbn; lia|].
    apply Z.div_unique with (y - Q + 2 ^ 63); lia.
Qed.
Lemma ext_range : forall y, 0 <= ext y < Q.
Proof. intros. unfold ext. mods. Qed.
Lemma lenc_signed : forall y, 0 <= y < Q -> lenc 64 4 (signed 64 y) = [y; ext y; ext y; ext y].
Proof.
  intros y H. symmetry. pose proof (ext_range y).
  apply lenc_unique; try lia; try (apply in4_intro; auto); auto.
  change (64 * Z.of_nat 4) with 256. cbn [lval]. destruct (ext_cases y H) as [(? & -> & ->)|(? & -> & ->)].
  - f_equal. lia.
  - rewrite <- (Z.mod_add (y - Q) 1) by lia. f_equal. lia.
Qed.
Lemma shr_signed : forall y, 0 <= y < Q -> (y / 2 ^ 63) mod Q = if signed 64 y <? 0 then 1 else 0.
Proof.
  intros y H. destruct (signed_cases y H) as [(L & ->)|(L & ->)].
  - rewrite Z.div_small by lia. destruct (Z.ltb_spec y 0); cbn; lia.
  - replace (y / 2 ^ 63) with 1; [destruct (Z.ltb_spec (y - Q) 0); cbn; lia|].
    apply Z.div_unique with (y - 2 ^ 63); lia.
Qed.
Lemma yi_range : forall k d y, 0 <= y < Q -> - 2 ^ (@W (x86 k d) - 1) <= signed 64 y < 2 ^ (@W (x86 k d) - 1).
Proof. intros. apply signed_range. auto. Qed.

Theorem C98_ssub_ilimb_flag : forall k d st, sane st ->
  gives_flag doc_ssub_ilimb_flag st (@ssub_overflowing_ilimb (x86 k d) (xs st) (yi st)).
Proof.
  intros k d st H. start st. enterf doc_ssub_ilimb_flag. limbs.
  unfold ssub_overflowing_ilimb, yi. cbn [regs length]. rewrite (ilimb_limbs_ok (W_x86 k d)) by (try lia; apply yi_range; auto).
  cbn [bind]. change (@W (x86 k d)) with 64. rewrite lenc_signed by auto. fold (ext (r RDX)). pose proof (ext_range (r RDX)).
  match goal with |- ssub_overflowing_full ?a ?b = _ => destruct (ssub_overflowing_full_ok (W_x86 k d) a b) as (f & E & F); try dig end.
  rewrite E. clear E. f_equal. f_equal; [symmetry; rewrite top_sub; eapply sub4; here|]. apply (same_flag _ _ _ F).
  rewrite xorb_comm, xor_sub by auto. eapply sub4_oflag; here.
Qed.

(** The other three listings leave the middle limbs without the sign: they are
    right exactly when the small number is not negative. *)

Lemma gives_inv : forall p st st' v0 v1 v2 v3 m, run p false st = Some st' ->
  mem st' = store 8 (store 8 (store 8 (store 8 (mem st) (regs st RDI + 0) v0) (regs st RDI + 8) v1) (regs st RDI + 16) v2) (regs st RDI + 24) v3 ->
  0 <= v0 < Q -> 0 <= v1 < Q -> 0 <= v2 < Q -> 0 <= v3 < Q ->
  gives p st m -> m = Ok [v0; v1; v2; v3].
Proof.
  intros p st st' v0 v1 v2 v3 m E M B0 B1 B2 B3 (s & E' & _ & ->). rewrite E in E'. inversion E'; subst s.
  rewrite M, array_stored; auto.
Qed.
Lemma gives_flag_inv : forall p st st' v0 v1 v2 v3 f m, run p false st = Some st' ->
  mem st' = store 1 (store 8 (store 8 (store 8 (store 8 (mem st) (regs st RDI + 0) v0) (regs st RDI + 8) v1) (regs st RDI + 16) v2) (regs st RDI + 24) v3)
              (regs st RDI + 32) (MListing.b2z f) ->
  0 <= v0 < Q -> 0 <= v1 < Q -> 0 <= v2 < Q -> 0 <= v3 < Q ->
  gives_flag p st m -> exists g, m = Ok ([v0; v1; v2; v3], g).
Proof.
  intros p st st' v0 v1 v2 v3 f m E M B0 B1 B2 B3 (s & g & E' & _ & _ & ->). rewrite E in E'. inversion E'; subst s.
  rewrite M, array_stored_flag, array_stored; eauto.
Qed.
Ltac leave p G := eapply gives_inv in G; [ | unfold p; repeat step1; reflexivity | cbn [mem]; reflexivity | mods | mods | mods | mods].
Ltac leavef p G := eapply gives_flag_inv in G;
  [ | unfold p; repeat step1; reflexivity | cbn [mem]; rewrite ?byte_put, ?lxor_bits, ?byte_put2; reflexivity | mods | mods | mods | mods].

Lemma top_sub0 : forall a f, (a mod Q - f) mod Q = (a - f) mod Q.
Proof. intros. apply Zminus_mod_idemp_l. Qed.
Lemma off_by_one : forall a, a mod Q = (a + (Q - 1)) mod Q -> False.
Proof.
  intros a E. assert (E2 : (a - (a + (Q - 1))) mod Q = 0) by (rewrite Zminus_mod, E, Z.sub_diag; reflexivity).
  replace (a - (a + (Q - 1))) with (1 + (-1) * Q) in E2 by lia. rewrite Z.mod_add in E2 by lia. discriminate.
Qed.

Lemma sadd_small : forall k d x0 x1 x2 x3 y, in4 [x0; x1; x2; x3] -> 0 <= y < Q ->
  @sadd_wrapping_ilimb (x86 k d) [x0; x1; x2; x3] (signed 64 y) =
  Ok (lenc 64 4 (lval 64 [x0; x1; x2; x3] + lval 64 [y; ext y; ext y; ext y])).
Proof.
  intros k d x0 x1 x2 x3 y (_ & Hx) Hy. unfold sadd_wrapping_ilimb. cbn [length].
  rewrite (ilimb_limbs_ok (W_x86 k d)) by (try lia; apply yi_range; auto). cbn [bind]. change (@W (x86 k d)) with 64.
  rewrite lenc_signed by auto. pose proof (ext_range y). rewrite (sadd_wrapping_full_ok (W_x86 k d)); auto; dig.
Qed.
Lemma ssub_small : forall k d x0 x1 x2 x3 y, in4 [x0; x1; x2; x3] -> 0 <= y < Q ->
  @ssub_wrapping_ilimb (x86 k d) [x0; x1; x2; x3] (signed 64 y) =
  Ok (lenc 64 4 (lval 64 [x0; x1; x2; x3] - lval 64 [y; ext y; ext y; ext y])).
Proof.
  intros k d x0 x1 x2 x3 y (_ & Hx) Hy. unfold ssub_wrapping_ilimb. cbn [length].
  rewrite (ilimb_limbs_ok (W_x86 k d)) by (try lia; apply yi_range; auto). cbn [bind]. change (@W (x86 k d)) with 64.
  rewrite lenc_signed by auto. pose proof (ext_range y). unfold ssub_wrapping_full. rewrite (sub_wrapping_full_ok (W_x86 k d)); auto; dig.
Qed.
Lemma sadd_small_flag : forall k d x0 x1 x2 x3 y, in4 [x0; x1; x2; x3] -> 0 <= y < Q ->
  exists f, @sadd_overflowing_ilimb (x86 k d) [x0; x1; x2; x3] (signed 64 y) =
  Ok (lenc 64 4 (lval 64 [x0; x1; x2; x3] + lval 64 [y; ext y; ext y; ext y]), f) /\
  (f = true <-> ~ fits_s 256 (@lsval (x86 k d) [x0; x1; x2; x3] + @lsval (x86 k d) [y; ext y; ext y; ext y])).
Proof.
  intros k d x0 x1 x2 x3 y (_ & Hx) Hy. unfold sadd_overflowing_ilimb. cbn [length].
  rewrite (ilimb_limbs_ok (W_x86 k d)) by (try lia; apply yi_range; auto). cbn [bind]. change (@W (x86 k d)) with 64.
  rewrite lenc_signed by auto. pose proof (ext_range y).
  destruct (sadd_overflowing_full_ok (W_x86 k d) [x0; x1; x2; x3] [y; ext y; ext y; ext y]) as (f & E & F); try dig; auto.
  exists f. split; auto.
Qed.

Theorem C98_sadd_ilimb_exact : forall k d st, sane st ->
  gives doc_sadd_ilimb st (@sadd_wrapping_ilimb (x86 k d) (xs st) (yi st)) <-> 0 <= yi st.
Proof.
  intros k d st H. start st. unfold yi. cbn [regs]. destruct (ext_cases (r RDX) Hr) as [(P & E & X)|(P & E & X)]; split; auto.
  - intros _. enter doc_sadd_ilimb. limbs. rewrite sadd_small by (auto; apply in4_intro; auto). f_equal. symmetry.
    fold (ext (r RDX)). rewrite X. apply add4; here.
  - intros G. exfalso. leave doc_sadd_ilimb G. revert G. limbs. rewrite sadd_small by (auto; apply in4_intro; auto). rewrite X.
    pose proof (add4 x x0 x1 x2 (r RDX) (Q - 1) (Q - 1) (Q - 1) _ _ _ _ Hx Hx0 Hx1 Hx2 Hr ltac:(lia) ltac:(lia) ltac:(lia)
      eq_refl eq_refl eq_refl eq_refl) as A.
    rewrite <- A. intros G. apply (f_equal (fun r => match r with Ok l => nth 1 l 0 | _ => 0 end)) in G. cbn [nth] in G. apply (off_by_one (x0 + MListing.b2z (Q <=? x + r RDX))). rewrite <- G. f_equal. lia.
  - intros; lia.
Qed.

Theorem C98_sadd_ilimb_flag_exact : forall k d st, sane st ->
  gives_flag doc_sadd_ilimb_flag st (@sadd_overflowing_ilimb (x86 k d) (xs st) (yi st)) <-> 0 <= yi st.
Proof.
  intros k d st H. start st. unfold yi. cbn [regs]. destruct (ext_cases (r RDX) Hr) as [(P & E & X)|(P & E & X)]; split; auto.
  - intros _. enterf doc_sadd_ilimb_flag. limbs.
    match goal with |- sadd_overflowing_ilimb [?a0; ?a1; ?a2; ?a3] _ = _ =>
      destruct (sadd_small_flag k d a0 a1 a2 a3 (r RDX)) as (f & E' & F); auto; [apply in4_intro; auto|] end.
    rewrite E'. clear E'. fold (ext (r RDX)). rewrite X in *. f_equal. f_equal.
    + symmetry. rewrite top_add. apply add4; here.
    + apply (same_flag _ _ _ F). rewrite xorb_comm, xor_add by (auto; lia). change (signed 64 0) with 0. rewrite Z.add_0_l.
      rewrite (lsval_one k d) by auto. eapply add1_oflag; here.
  - intros G. exfalso. leavef doc_sadd_ilimb_flag G. revert G. limbs. intros (g & G). revert G.
    destruct (sadd_small_flag k d x x0 x1 x2 (r RDX)) as (f & E' & F); auto; [apply in4_intro; auto|].
    rewrite E'. clear E'. rewrite X.
    pose proof (add4 x x0 x1 x2 (r RDX) (Q - 1) (Q - 1) (Q - 1) _ _ _ _ Hx Hx0 Hx1 Hx2 Hr ltac:(lia) ltac:(lia) ltac:(lia)
      eq_refl eq_refl eq_refl eq_refl) as A.
    rewrite <- A. intros G. apply (f_equal (fun r => match r with Ok (l, _) => nth 1 l 0 | _ => 0 end)) in G. cbn [nth] in G. apply (off_by_one (x0 + MListing.b2z (Q <=? x + r RDX))). rewrite <- G. f_equal. lia.
  - intros; lia.
Qed.

Theorem C98_ssub_ilimb_exact : forall k d st, sane st ->
  gives doc_ssub_ilimb st (@ssub_wrapping_ilimb (x86 k d) (xs st) (yi st)) <-> 0 <= yi st.
Proof.
  intros k d st H. start st. unfold yi. cbn [regs]. destruct (ext_cases (r RDX) Hr) as [(P & E & X)|(P & E & X)]; split; auto.
  - intros _. enter doc_ssub_ilimb. limbs. rewrite ssub_small by (auto; apply in4_intro; auto). f_equal. symmetry.
    rewrite X, shr_signed, E by auto. destruct (Z.ltb_spec (r RDX) 0); [lia|]. rewrite Z.add_0_l, top_sub0. apply sub4; here.
  - intros G. exfalso. leave doc_ssub_ilimb G. revert G. limbs. rewrite ssub_small by (auto; apply in4_intro; auto). rewrite X.
    pose proof (sub4 x x0 x1 x2 (r RDX) (Q - 1) (Q - 1) (Q - 1) _ _ _ _ Hx Hx0 Hx1 Hx2 Hr ltac:(lia) ltac:(lia) ltac:(lia)
      eq_refl eq_refl eq_refl eq_refl) as A.
    rewrite <- A. intros G. apply (f_equal (fun r => match r with Ok l => nth 1 l 0 | _ => 0 end)) in G. cbn [nth] in G. apply (off_by_one (x0 - (Q - 1) - MListing.b2z (x - r RDX <? 0))). rewrite G. f_equal. lia.
  - intros; lia.
Qed.

(** ** Assumptions (each must print "Closed under the global context") *)

Print Assumptions C98_add_full.
Print Assumptions C98_add_full_flag.
Print Assumptions C98_add_limb.
Print Assumptions C98_add_limb_flag.
Print Assumptions C98_sadd_full.
Print Assumptions C98_sadd_full_flag.
Print Assumptions C98_sadd_ulimb.
Print Assumptions C98_sadd_ulimb_flag.
Print Assumptions C98_sub_full.
Print Assumptions C98_sub_full_flag.
Print Assumptions C98_sub_limb.
Print Assumptions C98_sub_limb_flag.
Print Assumptions C98_ssub_full.
Print Assumptions C98_ssub_full_flag.
Print Assumptions C98_ssub_ulimb.
Print Assumptions C98_ssub_ulimb_flag.
Print Assumptions C98_ssub_ilimb_flag.
Print Assumptions C98_sadd_ilimb_exact.
Print Assumptions C98_sadd_ilimb_flag_exact.
Print Assumptions C98_ssub_ilimb_exact.
