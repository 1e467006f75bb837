(** * C96, C97: the program that prints the benchmark results
    (devel/bin/print-benches.rs) *)

Require Import ZArith List Bool Lia Floats.SpecFloat.
From Verif Require Import TextSpec MReport PReport.
Import ListNotations.
Local Open Scope Z_scope.

(** ** What a printed time says *)

(** [t] is a number of thousandths [T], written with three decimals, and a unit. *)
Definition display (t : text) (T : Z) (unit : text) : Prop :=
  exists ip fp, t = ip ++ 46 :: fp ++ unit /\ canonical 10 (T / 1000) ip /\
    length fp = 3%nat /\ numval 10 fp = Some (T mod 1000).

(** The units, by how many nanoseconds they have. *)
Inductive unit_of_time := Nano | Micro | Milli | Second.
Definition nanos (u : unit_of_time) : Z :=
  match u with Nano => 1 | Micro => 1000 | Milli => 1000000 | Second => 1000000000 end.
Definition name (u : unit_of_time) : text :=
  match u with Nano => [32; 110; 115] | Micro => [32; 181; 115] | Milli => [32; 109; 115] | Second => [32; 32; 115] end.
(** The largest unit that is not more than the time, or the nanosecond. *)
Definition unit_for (v : f64) : unit_of_time :=
  if scaled v <? 1000 * one64 then Nano
  else if scaled v <? 1000000 * one64 then Micro
  else if scaled v <? 1000000000 * one64 then Milli
  else Second.
(** What is divided off before the rounding to thousandths. *)
Definition in_unit (v : f64) : Z :=
  match unit_for v with Nano => scaled v | u => quotient64 (scaled v) (nanos u) end.
Definition printed (v : f64) : Z := half_even (in_unit v * 1000) one64.

(** Not negative, and not the negative zero. *)
Definition plain (v : f64) : Prop :=
  match v with S754_zero s | S754_finite s _ _ => s = false | _ => False end.

Lemma one64_pos : 0 < one64. Proof. reflexivity. Qed.
Lemma scaled_consts : scaled MICROS = 1000 * one64 /\ scaled MILLIS = 1000000 * one64 /\ scaled SECS = 1000000000 * one64.
Proof. vm_compute. auto. Qed.
Lemma plain_finite : forall v, plain v -> finite v /\ (f64_ok v -> 0 <= scaled v).
Proof.
  intros [s|s| |s m e] H; cbn in *; try contradiction; subst; split; auto; intros O.
  - lia.
  - apply ok_facts in O. pose proof (pow_pos (e + 1074) ltac:(lia)). nia.
Qed.
Lemma body_display : forall T unit, 0 <= T -> display ((dec (T / 1000) ++ 46 :: dec3 (T mod 1000)) ++ unit) T unit.
Proof.
  intros T unit HT. exists (dec (T / 1000)), (dec3 (T mod 1000)).
  split; [rewrite <- app_assoc; reflexivity|]. split; [apply dec_ok; apply Z.div_pos; lia|]. split; [reflexivity|].
  apply dec3_ok. apply Z.mod_pos_bound. lia.
Qed.
Lemma fixed3_display : forall m e unit, -1074 <= e ->
  display (fixed3 (S754_finite false m e) ++ unit) (half_even (scaled (S754_finite false m e) * 1000) one64) unit.
Proof.
  intros m e unit He. cbn [fixed3]. rewrite thousandths_ok by lia. cbn [scaled]. apply body_display.
  apply half_even_nonneg; [exact one64_pos|]. pose proof (pow_pos (e + 1074) ltac:(lia)). nia.
Qed.
Definition unit_f64 (u : unit_of_time) : f64 :=
  match u with Nano => f64_of 1 | Micro => MICROS | Milli => MILLIS | Second => SECS end.
Lemma divided : forall u v, u <> Nano -> f64_ok v -> finite v -> nanos u * one64 <= scaled v ->
  exists m e, f64_div v (unit_f64 u) = S754_finite false m e /\ -1074 <= e /\
    scaled (S754_finite false m e) = quotient64 (scaled v) (nanos u) /\ one64 <= scaled v / nanos u.
Proof.
  intros u v Hu Hv Hf Hle. destruct scaled_consts as (C1 & C2 & C3).
  destruct u; [congruence|apply div_scaled|apply div_scaled|apply div_scaled]; auto; try reflexivity; try lia;
    cbn [nanos] in Hle; lia.
Qed.
Lemma human_branches : forall v, f64_ok v -> finite v ->
  human_number v = match unit_for v with
                   | Nano => fixed3 v ++ NS
                   | u => fixed3 (f64_div v (unit_f64 u)) ++ name u
                   end.
Proof.
  intros v Hv Hf. destruct scaled_consts as (C1 & C2 & C3). unfold human_number, unit_for.
  assert (L1 : f64_lt v MICROS = (scaled v <? 1000 * one64)) by (rewrite <- C1; apply lt_ok; auto; reflexivity).
  assert (L2 : f64_lt v MILLIS = (scaled v <? 1000000 * one64)) by (rewrite <- C2; apply lt_ok; auto; reflexivity).
  assert (L3 : f64_lt v SECS = (scaled v <? 1000000000 * one64)) by (rewrite <- C3; apply lt_ok; auto; reflexivity).
  rewrite L1, L2, L3.
  destruct (scaled v <? 1000 * one64); [reflexivity|]. destruct (scaled v <? 1000000 * one64); [reflexivity|].
  destruct (scaled v <? 1000000000 * one64); reflexivity.
Qed.
Lemma unit_for_le : forall v, unit_for v <> Nano -> nanos (unit_for v) * one64 <= scaled v.
Proof.
  intros v. unfold unit_for. destruct (Z.ltb_spec (scaled v) (1000 * one64)); [congruence|].
  destruct (Z.ltb_spec (scaled v) (1000000 * one64)); [intros _; assumption|].
  destruct (Z.ltb_spec (scaled v) (1000000000 * one64)); intros _; assumption.
Qed.
Lemma unit_for_lt : forall v, unit_for v <> Second -> scaled v < 1000 * nanos (unit_for v) * one64.
Proof.
  intros v. unfold unit_for. destruct (Z.ltb_spec (scaled v) (1000 * one64)); [intros _; assumption|].
  destruct (Z.ltb_spec (scaled v) (1000000 * one64)); [intros _; assumption|].
  destruct (Z.ltb_spec (scaled v) (1000000000 * one64)); intros X; [assumption|congruence].
Qed.
Lemma nanos_pos : forall u, 0 < nanos u. Proof. destruct u; reflexivity. Qed.
Lemma big_quotient : forall u v, nanos u * one64 <= scaled v -> 2 ^ 52 <= scaled v / nanos u.
Proof.
  intros u v H. apply Z.le_trans with one64; [vm_compute; discriminate|].
  apply Z.div_le_lower_bound; [apply nanos_pos|exact H].
Qed.

(** Every time that is not negative is printed in its unit, with the nearest number of
    thousandths of the rounded quotient. *)
Theorem C96_printed : forall v, f64_ok v -> plain v ->
  display (human_number v) (printed v) (name (unit_for v)).
Proof.
  intros v Hv Hp. destruct (plain_finite v Hp) as [Hf Hn]. specialize (Hn Hv). rewrite human_branches by auto.
  unfold printed, in_unit. pose proof (unit_for_le v) as Hle. destruct (unit_for v) eqn:U.
  - clear Hle. destruct v as [s|s| |s m e]; cbn in Hp; try contradiction; subst s.
    + cbn [fixed3 scaled]. change (half_even (0 * 1000) one64) with 0. apply body_display. lia.
    + apply fixed3_display. apply ok_facts in Hv. lia.
  - destruct (divided Micro v) as (m & e & E & He & Q & _); auto; [discriminate|apply Hle; discriminate|].
    rewrite E, <- Q. apply fixed3_display; auto.
  - destruct (divided Milli v) as (m & e & E & He & Q & _); auto; [discriminate|apply Hle; discriminate|].
    rewrite E, <- Q. apply fixed3_display; auto.
  - destruct (divided Second v) as (m & e & E & He & Q & _); auto; [discriminate|apply Hle; discriminate|].
    rewrite E, <- Q. apply fixed3_display; auto.
Qed.
Example ex_C96_printed :
  let v := f64_div (f64_of 74224123) (f64_of 1000) in
  f64_ok v /\ plain v /\ unit_for v = Micro /\ printed v = 74224 /\
  human_number v = [55; 52; 46; 50; 50; 52; 32; 181; 115].
Proof. vm_compute. auto. Qed.

(** The printed time is off by no more than half a thousandth of the unit and a
    [2 ^ -53]th of the time. *)
Theorem C96_accurate : forall v, f64_ok v -> plain v ->
  2 ^ 54 * Z.abs (printed v * nanos (unit_for v) * one64 - 1000 * scaled v)
  <= 2 ^ 53 * nanos (unit_for v) * one64 + 2 * 1000 * scaled v.
Proof.
  intros v Hv Hp. destruct (plain_finite v Hp) as [Hf Hn]. specialize (Hn Hv).
  unfold printed. pose proof (half_even_near (in_unit v * 1000) one64 one64_pos) as N1.
  set (T := half_even (in_unit v * 1000) one64) in *. pose proof one64_pos as P1.
  assert (N2 : 2 ^ 53 * Z.abs (in_unit v * nanos (unit_for v) - scaled v) <= scaled v).
  { unfold in_unit. pose proof (unit_for_le v) as Hle. destruct (unit_for v) eqn:U.
    - cbn [nanos]. replace (scaled v * 1 - scaled v) with 0 by lia. cbn [Z.abs]. lia.
    - apply quotient64_near; [reflexivity|]. apply (big_quotient Micro). apply Hle. discriminate.
    - apply quotient64_near; [reflexivity|]. apply (big_quotient Milli). apply Hle. discriminate.
    - apply quotient64_near; [reflexivity|]. apply (big_quotient Second). apply Hle. discriminate. }
  pose proof (nanos_pos (unit_for v)) as Pu. set (u := nanos (unit_for v)) in *. set (R := in_unit v) in *.
  set (V := scaled v) in *. clearbody T u R V. set (A := one64) in *. clearbody A.
  replace (T * u * A - 1000 * V) with (u * (T * A - R * 1000) + 1000 * (R * u - V)) by ring.
  pose proof (Z.abs_triangle (u * (T * A - R * 1000)) (1000 * (R * u - V))) as Tr.
  rewrite !Z.abs_mul, (Z.abs_eq u), (Z.abs_eq 1000) in Tr by lia.
  set (X := Z.abs (T * A - R * 1000)) in *. set (Y := Z.abs (R * u - V)) in *.
  set (Z' := Z.abs (u * (T * A - R * 1000) + 1000 * (R * u - V))) in *. clearbody X Y Z'.
  assert (u * (2 * X) <= u * A) by (apply Z.mul_le_mono_nonneg_l; lia). lia.
Qed.
Example ex_C96_accurate :
  let v := f64_of 123456789012 in
  printed v * nanos (unit_for v) * one64 <> 1000 * scaled v /\ printed v = 123457 /\ unit_for v = Second.
Proof. vm_compute. repeat split; discriminate. Qed.

(** In nanoseconds nothing is divided: the printed number is the nearest one. *)
Theorem C96_nearest : forall v, f64_ok v -> plain v -> unit_for v = Nano ->
  2 * Z.abs (printed v * one64 - 1000 * scaled v) <= one64.
Proof.
  intros v Hv Hp U. unfold printed, in_unit. rewrite U. rewrite (Z.mul_comm 1000).
  apply half_even_near. exact one64_pos.
Qed.
Example ex_C96_nearest :
  let v := f64_div (f64_of 1) (f64_of 16) in
  f64_ok v /\ plain v /\ unit_for v = Nano /\ human_number v = [48; 46; 48; 54; 50; 32; 110; 115].
Proof. vm_compute. auto. Qed.

(** A number never exceeds 1000.000 in its unit below a second, and is at least 1.000
    above a nanosecond. *)
Lemma quot_top : forall u, u <> Nano -> quotient64 (1000 * nanos u * one64) (nanos u) = 1000 * one64.
Proof. intros []; intros; [congruence|vm_compute; reflexivity|vm_compute; reflexivity|vm_compute; reflexivity]. Qed.
Lemma quot_bottom : forall u, u <> Nano -> quotient64 (nanos u * one64) (nanos u) = one64.
Proof. intros []; intros; [congruence|vm_compute; reflexivity|vm_compute; reflexivity|vm_compute; reflexivity]. Qed.
Theorem C96_range : forall v, f64_ok v -> plain v ->
  (unit_for v <> Second -> printed v <= 1000000) /\ (unit_for v <> Nano -> 1000 <= printed v).
Proof.
  intros v Hv Hp. destruct (plain_finite v Hp) as [Hf Hn]. specialize (Hn Hv). split; intros HU.
  - pose proof (unit_for_lt v HU) as L. pose proof (unit_for_le v) as G. unfold printed.
    rewrite <- (half_even_exact 1000000 one64 one64_pos). apply half_even_mono; [exact one64_pos|].
    assert (in_unit v <= 1000 * one64); [|lia].
    destruct (unit_for v) eqn:U; unfold in_unit; rewrite U; [cbn [nanos] in L; lia| | |congruence].
    + rewrite <- (quot_top Micro) by discriminate. apply quotient64_mono; [reflexivity|apply (big_quotient Micro); apply G; discriminate|lia].
    + rewrite <- (quot_top Milli) by discriminate. apply quotient64_mono; [reflexivity|apply (big_quotient Milli); apply G; discriminate|lia].
  - pose proof (unit_for_le v HU) as G. unfold printed.
    rewrite <- (half_even_exact 1000 one64 one64_pos) at 1. apply half_even_mono; [exact one64_pos|].
    assert (one64 <= in_unit v); [|lia].
    assert (B : forall u, u <> Nano -> nanos u * one64 <= scaled v -> one64 <= quotient64 (scaled v) (nanos u)).
    { intros u Nu L. rewrite <- (quot_bottom u Nu) at 1. apply quotient64_mono; [apply nanos_pos| |exact L].
      rewrite Z.mul_comm, Z.div_mul by (pose proof (nanos_pos u); lia). vm_compute. discriminate. }
    unfold in_unit. destruct (unit_for v) eqn:U; [congruence| | |]; apply B; auto; discriminate.
Qed.
Example ex_C96_range : let v := f64_of 1000 in
  unit_for v = Micro /\ printed v = 1000 /\ human_number v = [49; 46; 48; 48; 48; 32; 181; 115].
Proof. vm_compute. auto. Qed.

(** A longer time is not printed as a shorter one. *)
Theorem C96_order : forall v w, f64_ok v -> plain v -> f64_ok w -> plain w -> scaled v <= scaled w ->
  printed v * nanos (unit_for v) <= printed w * nanos (unit_for w).
Proof.
  intros v w Hv Pv Hw Pw Hle. pose proof (C96_range v Hv Pv) as [Rv _]. pose proof (C96_range w Hw Pw) as [_ Rw].
  destruct (plain_finite v Pv) as [_ Nv]. specialize (Nv Hv).
  pose proof (unit_for_lt v) as Lv. pose proof (unit_for_le v) as Gv. pose proof (unit_for_lt w) as Lw. pose proof one64_pos as P1.
  assert (S : unit_for v = unit_for w -> printed v <= printed w).
  { intros E. unfold printed. apply half_even_mono; [exact P1|]. apply Z.mul_le_mono_nonneg_r; [lia|].
    unfold in_unit. rewrite <- E. destruct (unit_for v) eqn:U; [lia| | |];
      (apply quotient64_mono; [reflexivity| |lia]).
    - apply (big_quotient Micro). apply Gv. discriminate.
    - apply (big_quotient Milli). apply Gv. discriminate.
    - apply (big_quotient Second). apply Gv. discriminate. }
  destruct (unit_for v) eqn:Uv, (unit_for w) eqn:Uw; cbn [nanos] in *;
    try (specialize (S eq_refl); lia);
    try (specialize (Rv ltac:(discriminate)); specialize (Rw ltac:(discriminate)); lia);
    exfalso; pose proof (Gv ltac:(discriminate)); pose proof (Lw ltac:(discriminate)); lia.
Qed.
Example ex_C96_order :
  let v := f64_div (f64_of 9999996) (f64_of 10000) in let w := f64_of 1000 in
  scaled v < scaled w /\ printed v * nanos (unit_for v) = printed w * nanos (unit_for w) /\ unit_for v <> unit_for w.
Proof. vm_compute. repeat split. discriminate. Qed.

(** The number before the unit is not always below 1000: from 999.9995 on it is
    printed as 1000.000 of the smaller unit. *)
Theorem C96_thousand_refuted : exists v, f64_ok v /\ plain v /\
  human_number v = [49; 48; 48; 48; 46; 48; 48; 48; 32; 110; 115] /\ scaled v < 1000 * one64.
Proof. exists (f64_div (f64_of 9999996) (f64_of 10000)). vm_compute. auto. Qed.
Theorem C96_thousand_units_refuted :
  (exists v, f64_ok v /\ plain v /\ human_number v = [49; 48; 48; 48; 46; 48; 48; 48; 32; 181; 115]) /\
  (exists v, f64_ok v /\ plain v /\ human_number v = [49; 48; 48; 48; 46; 48; 48; 48; 32; 109; 115]).
Proof.
  split; [exists (f64_div (f64_of 9999996) (f64_of 10))|exists (f64_of 999999999)]; vm_compute; auto.
Qed.
Theorem C96_thousand_iff : forall v, f64_ok v -> plain v -> unit_for v = Nano ->
  (printed v = 1000000 <-> 1999999 * one64 <= 2000 * scaled v).
Proof.
  intros v Hv Hp U. pose proof (C96_range v Hv Hp) as [R _]. rewrite U in R. specialize (R ltac:(discriminate)).
  pose proof one64_pos as P1. split; intros H.
  - pose proof (C96_nearest v Hv Hp U) as N. rewrite H in N. lia.
  - apply Z.le_antisymm; [exact R|]. unfold printed, in_unit. rewrite U.
    assert (E : half_even (1999999 * 2 ^ 1073) one64 = 1000000) by (vm_compute; reflexivity).
    rewrite <- E at 1. apply half_even_mono; [exact P1|].
    assert (one64 = 2 * 2 ^ 1073) by (vm_compute; reflexivity). lia.
Qed.
Example ex_C96_thousand_iff : let v := f64_div (f64_of 9999996) (f64_of 10000) in
  unit_for v = Nano /\ printed v = 1000000 /\ let w := f64_div (f64_of 9999994) (f64_of 10000) in printed w = 999999.
Proof. vm_compute. auto. Qed.

(** A negative time keeps its nanoseconds, however large it is. *)
Theorem C96_negative : forall m e, f64_ok (S754_finite true m e) ->
  exists t T, human_number (S754_finite true m e) = 45 :: t /\ display t T (name Nano) /\
    2 * Z.abs (T * one64 + 1000 * scaled (S754_finite true m e)) <= one64.
Proof.
  intros m e Hv. pose proof (ok_facts _ _ _ Hv) as F. pose proof (pow_pos (e + 1074) ltac:(lia)) as P.
  rewrite human_branches by (auto; exact I). unfold unit_for.
  assert (L : scaled (S754_finite true m e) < 1000 * one64) by (cbn [scaled]; pose proof one64_pos; nia).
  apply Z.ltb_lt in L. rewrite L.
  exists (fixed3 (S754_finite false m e) ++ NS), (half_even (scaled (S754_finite false m e) * 1000) one64).
  split; [reflexivity|]. split; [apply fixed3_display; lia|].
  pose proof (half_even_near (scaled (S754_finite false m e) * 1000) one64 one64_pos) as N.
  cbn [scaled] in *. replace (1000 * (- Zpos m * 2 ^ (e + 1074))) with (- (Zpos m * 2 ^ (e + 1074) * 1000)) by ring.
  rewrite Z.add_opp_r. exact N.
Qed.
Example ex_C96_negative : f64_of (-5000000) = S754_finite true 5368709120000000 (-30) /\
  f64_ok (f64_of (-5000000)) /\
  human_number (f64_of (-5000000)) = [45; 53; 48; 48; 48; 48; 48; 48; 46; 48; 48; 48; 32; 110; 115].
Proof. vm_compute. auto. Qed.

(** ** Where the results are looked for *)

Lemma text_eqb_ok : forall a b, text_eqb a b = true <-> a = b.
Proof. intros a b. unfold text_eqb. destruct (list_eq_dec Z.eq_dec a b); split; congruence. Qed.
Lemma climb_ok : forall l,
  match climb l with
  | Got r => exists below up, l = below ++ r /\ r = TARGET :: up /\ ~ In TARGET below
  | Fail _ => False
  | Crash => ~ In TARGET l
  end.
Proof.
  induction l as [|nm l IH]; cbn [climb]; [auto|]. destruct (text_eqb nm TARGET) eqn:E.
  - apply text_eqb_ok in E. subst. exists [], l. auto.
  - assert (nm <> TARGET) by (intros X; apply text_eqb_ok in X; congruence).
    destruct (climb l) as [r|e|]; auto.
    + destruct IH as (below & up & -> & -> & N). exists (nm :: below), up.
      repeat split; auto. intros [X|X]; auto.
    + intros [X|X]; auto.
Qed.
(** The directory is the last one named [target] on the way to the program, and the
    program panics exactly when there is none. *)
Theorem C97_target : forall path d,
  target_directory (Some path) = Got d <->
  exists up below, d = up ++ [TARGET] /\ path = d ++ below /\ ~ In TARGET below.
Proof.
  intros path d. unfold target_directory. pose proof (climb_ok (rev path)) as H. split.
  - destruct (climb (rev path)) as [r|e|]; cbn [andThen]; intros E; inversion E; subst.
    destruct H as (below & up & E1 & -> & N). exists (rev up), (rev below). split; [reflexivity|]. split.
    + rewrite <- rev_app_distr, <- E1, rev_involutive. reflexivity.
    + rewrite <- in_rev. exact N.
  - intros (up & below & -> & -> & N). destruct (climb (rev ((up ++ [TARGET]) ++ below))) as [r|e|] eqn:C; cbn [andThen].
    + destruct H as (b' & u' & E1 & -> & N'). f_equal.
      rewrite rev_app_distr, rev_app_distr in E1. cbn [rev app] in E1.
      assert (X : b' = rev below /\ u' = rev up).
      { clear C. assert (N2 : ~ In TARGET (rev below)) by (rewrite <- in_rev; exact N).
        revert b' N' E1. induction (rev below) as [|a l IH]; intros b' N' E1; destruct b' as [|b b']; cbn [app] in E1.
        - inversion E1. auto.
        - inversion E1. subst. exfalso. apply N'. left. auto.
        - inversion E1. subst. exfalso. apply N2. left. auto.
        - inversion E1. destruct (IH ltac:(intros X; apply N2; right; auto) b' ltac:(intros X; apply N'; right; auto) ltac:(assumption)).
          subst. auto. }
      destruct X as [-> ->]. cbn [rev]. rewrite rev_involutive. reflexivity.
    + contradiction.
    + exfalso. apply H. rewrite <- in_rev. apply in_or_app. left. apply in_or_app. right. left. reflexivity.
Qed.
Theorem C97_no_target : forall path, target_directory (Some path) = Crash <-> ~ In TARGET path.
Proof.
  intros path. unfold target_directory. pose proof (climb_ok (rev path)) as H. destruct (climb (rev path)) as [r|e|]; cbn [andThen].
  - destruct H as (below & up & E1 & -> & N). split; [discriminate|]. intros X. exfalso. apply X. rewrite in_rev, E1.
    apply in_or_app. right. left. reflexivity.
  - contradiction.
  - rewrite <- in_rev in H. split; auto.
Qed.
(** /target/x/target/release/p: the inner one; /usr/bin/p: a panic *)
Example ex_C97_target :
  target_directory (Some [TARGET; [120]; TARGET; [114]; [112]]) = Got [TARGET; [120]; TARGET] /\
  target_directory (Some [[117]; [98]; [112]]) = Crash.
Proof. split; reflexivity. Qed.

(** ** What is printed *)

(** A listing that can be read: every entry, with its type. *)
Definition readable_listing (es : entries) : Prop :=
  Forall (fun e => exists nm n, e = Some (nm, n) /\ forall t, n <> Untyped t) es.
(** The directories in a listing, except the one called "report". *)
Definition directories (es : entries) : list node :=
  flat_map (fun e => match e with
                     | Some (nm, Dir r l) => if list_eq_dec Z.eq_dec nm REPORT then [] else [Dir r l]
                     | _ => []
                     end) es.

Lemma each_ok : forall body es l, each body es = Got l <->
  readable_listing es /\ exists ls, Forall2 (fun n l => body n = Got l) (directories es) ls /\ l = concat ls.
Proof.
  intros body. induction es as [|[[nm n]|] es IH]; intros l; cbn [each].
  - split.
    + intros E. inversion E. split; [constructor|]. exists []. split; [constructor|reflexivity].
    + intros (_ & ls & F & ->). inversion F. reflexivity.
  - assert (Skip : (forall t, n <> Untyped t) -> directories (Some (nm, n) :: es) = directories es ->
       (each body es = Got l <-> readable_listing (Some (nm, n) :: es) /\
        exists ls, Forall2 (fun n l => body n = Got l) (directories (Some (nm, n) :: es)) ls /\ l = concat ls)).
    { intros Hn ->. rewrite IH. split; intros (R & X); (split; [|exact X]).
      - constructor; [exists nm, n; auto|exact R].
      - inversion R; auto. }
    destruct n as [c|r es'|t|t]; cbn [is_dir].
    + apply Skip; [discriminate|reflexivity].
    + unfold text_eqb. destruct (list_eq_dec Z.eq_dec nm REPORT) as [E|E].
      * apply Skip; [discriminate|]. unfold directories. cbn [flat_map]. destruct (list_eq_dec Z.eq_dec nm REPORT); [reflexivity|congruence].
      * assert (D : directories (Some (nm, Dir r es') :: es) = Dir r es' :: directories es).
        { unfold directories. cbn [flat_map]. destruct (list_eq_dec Z.eq_dec nm REPORT); [congruence|reflexivity]. }
        rewrite D. clear Skip. split.
        -- destruct (body (Dir r es')) as [x| |] eqn:B; cbn [andThen]; [|discriminate|discriminate].
           destruct (each body es) as [y| |] eqn:Y; cbn [andThen]; [|discriminate|discriminate]. intros X. inversion X; subst.
           destruct (proj1 (IH y) eq_refl) as (R & ls & F & ->).
           split; [constructor; [exists nm, (Dir r es'); split; [reflexivity|discriminate]|exact R]|].
           exists (x :: ls). split; [constructor; auto|reflexivity].
        -- intros (R & ls & F & ->). inversion F as [|n0 x ds ls' B F' E1 E2]; subst. inversion R; subst. cbv beta in B. rewrite B. cbn [andThen].
           rewrite (proj2 (IH (concat ls'))); [reflexivity|]. split; auto. exists ls'. auto.
    + apply Skip; [discriminate|reflexivity].
    + split; [discriminate|]. intros (R & _). inversion R as [|e es0 (nm' & n' & X & Y) R']; subst. inversion X; subst. exfalso. apply (Y t). reflexivity.
  - split; [discriminate|]. intros (R & _). inversion R as [|e es0 (nm' & n' & X & Y) R']; subst. discriminate.
Qed.

(** The text of the file [nm] in the directory [base] of a benchmark. *)
Definition record_text (bench : node) (nm : text) (t : text) : Prop :=
  exists r es b r' es' f c,
    bench = Dir r es /\ find_entry BASE es = Some b /\ follow b = Some (Dir r' es') /\
    find_entry nm es' = Some f /\ follow f = Some (File (Some c)) /\ c = t.

Section Run.
Variable from_str_b : text -> option benchmark.
Variable from_str_e : text -> option estimates.

(** The two records of a benchmark. *)
Definition recorded (bench : node) (p : benchmark * estimates) : Prop :=
  exists tb te, record_text bench BENCHMARK_JSON tb /\ from_str_b tb = Some (fst p) /\
    record_text bench ESTIMATES_JSON te /\ from_str_e te = Some (snd p).

Lemma read_text_ok : forall r es nm t,
  read_to_string (join (join (Some (Dir r es)) BASE) nm) = Some t <-> record_text (Dir r es) nm t.
Proof.
  intros r es nm t. cbn [join follow]. unfold record_text. split.
  - destruct (find_entry BASE es) as [b|] eqn:B; [|discriminate].
    destruct (follow b) as [[?|r' es'|?|?]|] eqn:F; cbn [join]; rewrite F; try discriminate.
    unfold read_to_string. destruct (find_entry nm es') as [f|] eqn:G; [|discriminate].
    destruct (follow f) as [[c|? ?|?|?]|] eqn:K; try discriminate. intros ->.
    exists r, es, b, r', es', f, t. repeat split; auto.
  - intros (r0 & es0 & b & r' & es' & f & c & X & B & F & G & K & ->). inversion X; subst. rewrite B. cbn [join]. rewrite F. unfold read_to_string.
    rewrite G, K. reflexivity.
Qed.
Lemma one_bench_ok : forall r es l, one_bench from_str_b from_str_e (Dir r es) = Got l <->
  exists p, recorded (Dir r es) p /\ l = [p].
Proof.
  intros r es l. unfold one_bench, read_benchmark, read_estimates, read_record. cbv zeta. split.
  - destruct (read_to_string (join (join (Some (Dir r es)) BASE) BENCHMARK_JSON)) as [tb|] eqn:B; cbn [andThen]; [|discriminate].
    destruct (from_str_b tb) as [b|] eqn:FB; cbn [andThen]; [|discriminate].
    destruct (read_to_string (join (join (Some (Dir r es)) BASE) ESTIMATES_JSON)) as [te|] eqn:E; cbn [andThen]; [|discriminate].
    destruct (from_str_e te) as [e|] eqn:FE; cbn [andThen]; [|discriminate]. intros X. inversion X. exists (b, e).
    split; [|reflexivity]. exists tb, te. rewrite <- !read_text_ok. auto.
  - intros ([b e] & (tb & te & B & FB & E & FE) & ->). rewrite <- read_text_ok in B, E. cbn [fst snd] in *.
    rewrite B, FB. cbn [andThen]. rewrite E, FE. reflexivity.
Qed.
Lemma directories_dir : forall es, Forall (fun n => exists r l, n = Dir r l) (directories es).
Proof.
  induction es as [|[[nm n]|] es IH]; [constructor| |exact IH]. unfold directories. cbn [flat_map]. apply Forall_app. split; [|exact IH].
  destruct n; try constructor. destruct (list_eq_dec Z.eq_dec nm REPORT); constructor; eauto.
Qed.
Lemma benches_ok : forall ds ls, Forall (fun n => exists r l, n = Dir r l) ds ->
  (Forall2 (fun n l => one_bench from_str_b from_str_e n = Got l) ds ls <-> exists ps, Forall2 recorded ds ps /\ ls = map (fun p => [p]) ps).
Proof.
  induction ds as [|d ds IH]; intros ls HD.
  - split; [intros F; inversion F; exists []; split; constructor|intros (ps & F & ->); inversion F; constructor].
  - inversion HD as [|? ? (r & l & ->) HD']; subst. split.
    + intros F. inversion F as [|? y ? ls' B F']; subst. apply one_bench_ok in B. destruct B as (p & R & ->).
      apply IH in F'; auto. destruct F' as (ps & Fp & ->). exists (p :: ps). split; [constructor; auto|reflexivity].
    + intros (ps & Fp & ->). inversion Fp as [|? p ? ps' R F']; subst. cbn [map]. constructor.
      * apply one_bench_ok. exists p. auto.
      * apply IH; auto. exists ps'. auto.
Qed.
Lemma concat_singles : forall {A} (l : list A), concat (map (fun p => [p]) l) = l.
Proof. intros A l. induction l; cbn; congruence. Qed.

(** What a group can be listed as. *)
Definition group_listing (g : node) (es : entries) : Prop := g = Dir true es /\ readable_listing es.

Lemma groups_ok : forall gs ls, Forall (fun n => exists r l, n = Dir r l) gs ->
  (Forall2 (fun n l => one_group from_str_b from_str_e n = Got l) gs ls <->
   exists ess, Forall2 group_listing gs ess /\ Forall2 (fun es l => Forall2 recorded (directories es) l) ess ls).
Proof.
  induction gs as [|g gs IH]; intros ls HD.
  - split; [intros F; inversion F; exists []; split; constructor|intros (ess & F & F2); inversion F; subst; inversion F2; constructor].
  - inversion HD as [|? ? (r & es & ->) HD']; subst. split.
    + intros F. inversion F as [|? y ? ls' B F']; subst. apply IH in F'; auto. destruct F' as (ess & F1 & F2).
      unfold one_group, read_dir in B. cbn [follow] in B. destruct r; [|discriminate].
      apply each_ok in B. destruct B as (R & ls0 & F0 & ->). apply benches_ok in F0; [|apply directories_dir].
      destruct F0 as (ps & Fp & ->). rewrite concat_singles. exists (es :: ess). split; constructor; auto. split; auto.
    + intros (ess & F1 & F2). inversion F1 as [|? e0 ? ess' [X R] F1']; subst. inversion X; subst.
      inversion F2 as [|? l0 ? ls' Y F2']; subst. constructor.
      * unfold one_group, read_dir. cbn [follow]. apply each_ok. split; auto. exists (map (fun p => [p]) l0). split.
        -- apply benches_ok; [apply directories_dir|]. exists l0. auto.
        -- rewrite concat_singles. reflexivity.
      * apply IH; auto. exists ess'. auto.
Qed.

(** Everything is printed, or nothing: a run prints its lines exactly when the results
    can be listed and both records of every benchmark can be read; then there is one
    line for each, in the order of the listings. *)
Theorem C97_all_or_nothing : forall colours exe root lines,
  main from_str_b from_str_e colours exe root = Got lines <->
  exists d node0 r es ess pss,
    criterion_directory exe = Got d /\ walk root d = Some node0 /\ follow node0 = Some (Dir r es) /\ r = true /\
    readable_listing es /\ Forall2 group_listing (directories es) ess /\
    Forall2 (fun e ps => Forall2 recorded (directories e) ps) ess pss /\
    lines = map (line colours (max_length (concat pss))) (concat pss).
Proof.
  intros colours exe root lines. unfold main. split.
  - destruct (criterion_directory exe) as [d| |]; cbn [andThen]; [|discriminate|discriminate].
    unfold all_groups. destruct (walk root d) as [n0|] eqn:W; [|discriminate]. cbn [read_dir].
    destruct (follow n0) as [[?|r es|?|?]|] eqn:F; try discriminate. destruct r; [|discriminate].
    destruct (each (one_group from_str_b from_str_e) es) as [l| |] eqn:E; cbn [andThen]; [|discriminate|discriminate].
    intros X. inversion X; subst. apply each_ok in E. destruct E as (R & pss & F2 & ->).
    apply groups_ok in F2; [|apply directories_dir]. destruct F2 as (ess & G1 & G2).
    exists d, n0, true, es, ess, pss. repeat split; auto.
  - intros (d & n0 & r & es & ess & pss & D & W & F & -> & R & G1 & G2 & ->). rewrite D. cbn [andThen].
    unfold all_groups. rewrite W. cbn [read_dir]. rewrite F.
    assert (E : each (one_group from_str_b from_str_e) es = Got (concat pss)).
    { apply each_ok. split; auto. exists pss. split; auto. apply groups_ok; [apply directories_dir|]. exists ess. auto. }
    rewrite E. reflexivity.
Qed.

(** A record that is not there is reported as "base not found", whichever it is. *)
Lemma each_fail : forall body e es, (forall n e, body n = Fail e -> e = System \/ e = NotFound (BASE ++ NOT_FOUND)) ->
  each body es = Fail e -> e = System \/ e = NotFound (BASE ++ NOT_FOUND).
Proof.
  intros body e es Hb. induction es as [|[[nm n]|] es IH]; cbn [each]; [discriminate| |discriminate].
  destruct (is_dir n) as [[]|]; [|exact IH|discriminate]. destruct (text_eqb nm REPORT); [exact IH|].
  destruct (body n) as [x|x|] eqn:B; cbn [andThen]; [|intros X; inversion X; subst; eapply Hb; eauto|discriminate].
  destruct (each body es); cbn [andThen]; [discriminate|exact IH|discriminate].
Qed.
Theorem C97_message : forall colours exe root msg,
  main from_str_b from_str_e colours exe root = Fail (NotFound msg) ->
  msg = [98; 97; 115; 101; 32; 110; 111; 116; 32; 102; 111; 117; 110; 100].
Proof.
  intros colours exe root msg. unfold main, criterion_directory, target_directory.
  destruct exe as [path|]; [|discriminate]. pose proof (climb_ok (rev path)) as C.
  destruct (climb (rev path)) as [r|e|]; cbn [andThen]; [|contradiction|discriminate].
  assert (B : forall n e, one_bench from_str_b from_str_e n = Fail e -> e = System \/ e = NotFound (BASE ++ NOT_FOUND)).
  { intros n e. unfold one_bench, read_benchmark, read_estimates, read_record. cbv zeta.
    destruct (read_to_string (join (join (Some n) BASE) BENCHMARK_JSON)) as [tb|]; cbn [andThen]; [|intros X; inversion X; auto].
    destruct (from_str_b tb) as [b|]; cbn [andThen]; [|discriminate].
    destruct (read_to_string (join (join (Some n) BASE) ESTIMATES_JSON)) as [te|]; cbn [andThen]; [|intros X; inversion X; auto].
    destruct (from_str_e te); cbn [andThen]; discriminate. }
  assert (G : forall n e, one_group from_str_b from_str_e n = Fail e -> e = System \/ e = NotFound (BASE ++ NOT_FOUND)).
  { intros n e. unfold one_group. destruct (read_dir (Some n)) as [es|]; [|intros X; inversion X; auto].
    apply each_fail. exact B. }
  unfold all_groups. destruct (read_dir (walk root (rev r ++ [CRITERION]))) as [es|]; cbn [andThen]; [|discriminate].
  destruct (each (one_group from_str_b from_str_e) es) as [l|e|] eqn:E; cbn [andThen]; [discriminate| |discriminate].
  intros X. inversion X. subst e. apply each_fail in E; [|exact G]. destruct E as [E|E]; [discriminate|]. inversion E. reflexivity.
Qed.
End Run.

(** ** The table *)

Lemma len8_ge : forall t, (length t <= len8 t)%nat.
Proof.
  induction t as [|ch t IH]; [reflexivity|]. change (len8 (ch :: t)) with
    (Nat.add (Z.to_nat (if ch <? 128 then 1 else if ch <? 2048 then 2 else if ch <? 65536 then 3 else 4)) (len8 t)).
  cbn [length]. destruct (ch <? 128), (ch <? 2048), (ch <? 65536); lia.
Qed.
Lemma len8_ascii : forall t, Forall (fun ch => ch < 128) t -> len8 t = length t.
Proof.
  induction t as [|ch t IH]; intros H; [reflexivity|]. inversion H as [|? ? H1 H2]; subst. cbn.
  apply Z.ltb_lt in H1. rewrite H1. change (S (len8 t) = S (length t)). rewrite IH; auto.
Qed.
Lemma max_length_ge : forall l p, In p l -> (len8 (title (fst p)) <= max_length l)%nat.
Proof.
  induction l as [|q l IH]; intros p H; [contradiction|]. cbn. destruct H as [->|H]; [lia|]. specialize (IH p H). unfold max_length in IH. lia.
Qed.
(** What a line shows of a result: the slope if there is one, else the mean. *)
Definition metric (e : estimates) : estimate := match slope e with Some s => s | None => mean e end.
Definition proper (v : f64) : Prop := f64_ok v /\ plain v.

(** Every title is printed in full, and what follows it starts at the same column of
    every line. *)
Theorem C97_columns : forall l, exists w, forall p, In p l ->
  exists blanks rest,
    line false (max_length l) p = title (fst p) ++ blanks ++ [58; 32] ++ rest /\
    Forall (eq 32) blanks /\ (length (title (fst p)) + length blanks = w)%nat.
Proof.
  intros l. exists (max_length l). intros [b e] H. pose proof (max_length_ge l _ H) as M. cbn [fst] in *.
  pose proof (len8_ge (title b)). unfold line, cyan, paint, pad. cbv zeta. rewrite <- app_assoc.
  do 2 eexists. split; [reflexivity|]. split.
  - apply Forall_forall. intros x Hx. symmetry. exact (repeat_spec _ _ _ Hx).
  - rewrite repeat_length. lia.
Qed.
(** The four times of a line. *)
Theorem C97_line : forall w b e,
  proper (point_estimate (metric e)) -> proper (standard_error (metric e)) ->
  proper (lower_bound (interval (metric e))) -> proper (upper_bound (interval (metric e))) ->
  exists t1 t2 t3 t4,
    line false w (b, e) = pad w (title b) ++ [58; 32] ++ t1 ++ [32; 177; 32] ++ t2 ++ [32; 40] ++ t3 ++ [44; 32] ++ t4 ++ [41] /\
    Forall2 (fun t v => display t (printed v) (name (unit_for v))) [t1; t2; t3; t4]
      [point_estimate (metric e); standard_error (metric e); lower_bound (interval (metric e)); upper_bound (interval (metric e))].
Proof.
  intros w b e [O1 P1] [O2 P2] [O3 P3] [O4 P4]. do 4 eexists. split; [reflexivity|].
  repeat constructor; apply C96_printed; assumption.
Qed.
(** The width is counted in bytes: with titles in ASCII it is the length of the longest
    one, and otherwise the column can be further right than any title needs. *)
Theorem C97_width : forall l, (forall p, In p l -> Forall (fun ch => ch < 128) (title (fst p))) -> l <> [] ->
  exists p, In p l /\ length (title (fst p)) = max_length l.
Proof.
  induction l as [|q l IH]; intros H Hn; [congruence|].
  assert (E : len8 (title (fst q)) = length (title (fst q))) by (apply len8_ascii; apply H; left; reflexivity).
  destruct l as [|q' l].
  - exists q. split; [left; reflexivity|]. cbn. lia.
  - destruct IH as (p & Hp & Ep); [intros p Hp; apply H; right; exact Hp|discriminate|].
    change (max_length (q :: q' :: l)) with (Nat.max (len8 (title (fst q))) (max_length (q' :: l))).
    destruct (Nat.max_spec (len8 (title (fst q))) (max_length (q' :: l))) as [[_ X]|[_ X]]; rewrite X.
    + exists p. split; [right; exact Hp|exact Ep].
    + exists q. split; [left; reflexivity|lia].
Qed.

Definition ex_est (v : f64) : estimate :=
  Build_estimate v (f64_of 10) (Build_confidence_interval (f64_of 1) (f64_of 74053) (f64_of 74440)).
Definition ex_bench (t : text) : benchmark := Build_benchmark [103] t t t None None None.
(** readers for the examples: a record of benchmark is its title, the estimates of "x"
    have a slope *)
Definition ex_b (t : text) : option benchmark := match t with [] => None | _ => Some (ex_bench t) end.
Definition ex_e (t : text) : option estimates :=
  Some (Build_estimates (ex_est (f64_of 999)) None (if text_eqb t [120] then Some (ex_est (f64_of 74224)) else None) None None).
Definition ex_dir (b e : option text) : node :=
  Dir true [Some (REPORT, Dir true []); Some (BASE, Dir true
    ((match b with Some t => [Some (BENCHMARK_JSON, File (Some t))] | None => [] end) ++
     (match e with Some t => [Some (ESTIMATES_JSON, File (Some t))] | None => [] end)))].
Definition ex_root (b2 e2 : option text) : node :=
  Dir true [Some (TARGET, Dir true [Some ([100], Dir true []); Some (CRITERION, Dir true
    [Some (REPORT, Dir true [Some ([105], File None)]);
     Some ([97], Dir true [Some ([49], ex_dir (Some [97; 47; 49]) (Some [120])); Some ([110], File (Some []));
                           Some ([50], ex_dir b2 e2)])])])].
Definition ex_exe : option (list text) := Some [TARGET; [100]; [112]].
(** a/1:   74.224 and é:   999.000, with "é" two bytes long *)
Example ex_C97_lines :
  main ex_b ex_e false ex_exe (ex_root (Some [233]) (Some [121])) =
  Got [[97; 47; 49; 58; 32; 55; 52; 46; 50; 50; 52; 32; 181; 115; 32; 177; 32; 49; 48; 46; 48; 48; 48; 32; 110; 115; 32; 40;
        55; 52; 46; 48; 53; 51; 32; 181; 115; 44; 32; 55; 52; 46; 52; 52; 48; 32; 181; 115; 41];
       [233; 32; 32; 58; 32; 57; 57; 57; 46; 48; 48; 48; 32; 110; 115; 32; 177; 32; 49; 48; 46; 48; 48; 48; 32; 110; 115; 32; 40;
        55; 52; 46; 48; 53; 51; 32; 181; 115; 44; 32; 55; 52; 46; 52; 52; 48; 32; 181; 115; 41]].
Proof. vm_compute. reflexivity. Qed.
(** A missing benchmark.json, a missing estimates.json, a record that is not understood. *)
Example ex_C97_failures :
  main ex_b ex_e false ex_exe (ex_root None (Some [121])) = Fail (NotFound (BASE ++ NOT_FOUND)) /\
  main ex_b ex_e false ex_exe (ex_root (Some [121]) None) = Fail (NotFound (BASE ++ NOT_FOUND)) /\
  main ex_b ex_e false ex_exe (ex_root (Some []) (Some [121])) = Crash.
Proof. vm_compute. auto. Qed.
Theorem C97_width_refuted : exists l : list (benchmark * estimates),
  l <> [] /\ forall p, In p l -> (length (title (fst p)) < max_length l)%nat.
Proof.
  exists [(ex_bench [233], Build_estimates (ex_est (f64_of 1)) None None None None)].
  split; [discriminate|]. intros p [<-|[]]. cbn. lia.
Qed.
Example ex_C97_columns :
  let l := [(ex_bench [97; 47; 49], Build_estimates (ex_est (f64_of 1)) None None None None);
            (ex_bench [97], Build_estimates (ex_est (f64_of 1)) None None None None)] in
  max_length l = 3%nat /\ firstn 5 (line false (max_length l) (nth 1 l (nth 0 l (ex_bench [], Build_estimates (ex_est (f64_of 1)) None None None None)))) = [97; 32; 32; 58; 32].
Proof. vm_compute. auto. Qed.
Example ex_C97_line : proper (point_estimate (ex_est (f64_of 74224))) /\ proper (standard_error (ex_est (f64_of 74224))).
Proof. vm_compute. auto. Qed.

(** ** Assumptions (each must print "Closed under the global context") *)

Print Assumptions C96_printed.
Print Assumptions C96_accurate.
Print Assumptions C96_nearest.
Print Assumptions C96_range.
Print Assumptions C96_order.
Print Assumptions C96_thousand_refuted.
Print Assumptions C96_thousand_units_refuted.
Print Assumptions C96_thousand_iff.
Print Assumptions C96_negative.
Print Assumptions C97_target.
Print Assumptions C97_no_target.
Print Assumptions C97_all_or_nothing.
Print Assumptions C97_message.
Print Assumptions C97_columns.
Print Assumptions C97_line.
Print Assumptions C97_width.
Print Assumptions C97_width_refuted.
