(** * Properties of the random benchmarks (C89, C90) *)

Require Import String ZArith List Bool Lia.
From Verif Require Import Prim Spec Facts MAdd MMul MShift MCore PCore PBits PWide MArith PArith PArith2 PPow PMisc PRet
  MDiv DivSpec PDiv PApi PApi2 MApi MScalar PScalar MForms MLayout PLayout PropsScalar PropsDiv PropsDivAll MBench PRot.
From Verif Require PropsForms.
Import ListNotations.
Local Open Scope string_scope.
Local Open Scope list_scope.
Local Open Scope Z_scope.

(** ** Vocabulary *)

Definition widths : list Z := [8; 16; 32; 64; 128].
(** the strategies a type has *)
Definition allowed (sg : bool) (s : strategy) : Prop := sg = true \/ (s <> SimpleSigned /\ s <> LargeSigned).
(** the least value of a strategy and the first one above its values *)
Definition small (b : Z) : Z := if b =? 8 then 50 else 1000.
Definition large (b : Z) : Z := Z.max 100 (2 ^ (b - 6)).
Definition top (sg : bool) (b : Z) : Z := if sg then 2 ^ (b - 1) - 1 else 2 ^ b - 1.
Definition least (sg : bool) (b : Z) (s : strategy) : Z :=
  match s with
  | Uniform => if sg then - 2 ^ (b - 1) else 0
  | Simple => 0 | SimpleSigned => - small b | Large => large b | LargeSigned => - top true b end.
Definition bound (sg : bool) (b : Z) (s : strategy) : Z :=
  match s with Uniform | Large => top sg b | Simple | SimpleSigned => small b | LargeSigned => - large b end.
Definition zero_here (s : strategy) (j : nat) : bool := match s with Simple | SimpleSigned => Nat.odd j | _ => false end.
(** [v] can be at place [j] of an array *)
Definition possible (sg : bool) (b : Z) (s : strategy) (j : nat) (v : Z) : Prop :=
  if zero_here s j then v = 0 else least sg b s <= v < bound sg b s.
Definition possible_from (sg : bool) (b : Z) (s : strategy) (n j : nat) (a : list Z) : Prop :=
  length a = n /\ forall i, (i < n)%nat -> possible sg b s (j + i) (nth i a 0).
Definition possible_array (sg : bool) (b : Z) (s : strategy) (n : nat) (a : list Z) : Prop := possible_from sg b s n 0 a.
(** the number two 128-bit halves make, the low half read as unsigned *)
Definition glue (x y : Z) : Z := x mod 2 ^ 128 + 2 ^ 128 * y.
Definition half_fits (sg : bool) (v : Z) : Prop := if sg then fits_s 128 v else fits_u 128 v.

(** ** Proofs *)

Lemma range_eq : forall sg b s, In b widths -> allowed sg s ->
  range sg b s = Some (least sg b s, bound sg b s) /\ least sg b s < bound sg b s.
Proof.
  intros sg b s Hb Ha.
  assert (H : sg = true \/ (s = Uniform \/ s = Simple \/ s = Large)).
  { destruct Ha as [Ha|(A & B)]; [auto|]. right. destruct s; auto; congruence. }
  clear Ha. cbn [In widths] in Hb.
  destruct sg; [destruct s|destruct H as [H|[->|[->| ->]]]; [discriminate|..]];
    repeat (destruct Hb as [<-|Hb]; [split; reflexivity|]); contradiction.
Qed.
Definition put (v : Z) (t : rng) : rng := fun n => match n with O => v | S n => t n end.
Lemma gen_some : forall sg b s r, In b widths -> allowed sg s ->
  exists v r', gen sg b s r = Ok (v, r') /\ least sg b s <= v < bound sg b s.
Proof.
  intros sg b s r Hb Ha. destruct (range_eq sg b s Hb Ha) as (E & L). unfold gen, draw. rewrite E.
  rewrite (proj2 (Z.leb_gt _ _) L). eexists _, _. split; [reflexivity|].
  pose proof (Z.mod_pos_bound (r 0%nat) (bound sg b s - least sg b s)). lia.
Qed.
Lemma gen_put : forall sg b s v t, In b widths -> allowed sg s -> least sg b s <= v < bound sg b s ->
  gen sg b s (put (v - least sg b s) t) = Ok (v, t).
Proof.
  intros sg b s v t Hb Ha Hv. destruct (range_eq sg b s Hb Ha) as (E & L). unfold gen, draw. rewrite E.
  rewrite (proj2 (Z.leb_gt _ _) L). cbn [put]. rewrite Z.mod_small by lia. replace (least sg b s + (v - least sg b s)) with v by lia. reflexivity.
Qed.
Lemma simple_zero : forall s j,
  (match s with Simple | SimpleSigned => true | _ => false end) && Nat.odd j = zero_here s j.
Proof. destruct s; reflexivity. Qed.
Lemma array_some : forall sg b s n j r, In b widths -> allowed sg s ->
  exists a r', gen_array sg b s n j r = Ok (a, r') /\ possible_from sg b s n j a.
Proof.
  intros sg b s n. induction n as [|n IH]; intros j r Hb Ha; cbn [gen_array].
  - eexists _, _. split; [reflexivity|]. split; [reflexivity|]. intros; lia.
  - rewrite simple_zero.
    assert (G : exists v r', (if zero_here s j then Ok (0, r) else gen sg b s r) = Ok (v, r') /\ possible sg b s j v).
    { unfold possible. destruct (zero_here s j); [eauto|]. apply gen_some; auto. }
    destruct G as (v & r1 & E & P). rewrite E. cbn [bind].
    destruct (IH (S j) r1 Hb Ha) as (a & r2 & E2 & L & Q). rewrite E2. cbn [bind].
    eexists _, _. split; [reflexivity|]. split; [cbn [List.length]; lia|].
    intros [|i] Hi; cbn [nth]; [rewrite Nat.add_0_r; exact P|]. rewrite Nat.add_succ_r. apply (Q i). lia.
Qed.
Lemma array_put : forall sg b s n j a t, In b widths -> allowed sg s -> possible_from sg b s n j a ->
  exists r, gen_array sg b s n j r = Ok (a, t).
Proof.
  intros sg b s n. induction n as [|n IH]; intros j a t Hb Ha (L & Q); cbn [gen_array].
  - destruct a; [|discriminate]. exists t. reflexivity.
  - destruct a as [|v a]; [discriminate|].
    destruct (IH (S j) a t Hb Ha) as (r & E).
    { split; [cbn [List.length] in L; lia|]. intros i Hi. specialize (Q (S i) ltac:(lia)). rewrite Nat.add_succ_r in Q. exact Q. }
    specialize (Q 0%nat ltac:(lia)). rewrite Nat.add_0_r in Q. cbn [nth] in Q.
    setoid_rewrite simple_zero. unfold possible in Q. destruct (zero_here s j).
    + exists r. cbn [bind]. rewrite E. cbn [bind]. rewrite Q. reflexivity.
    + exists (put (v - least sg b s) r). rewrite gen_put by auto. cbn [bind]. rewrite E. reflexivity.
Qed.

(** ** C89: the data *)

(** Every generator gives [count] arrays of [n] values in the stated ranges... *)
Theorem C89_data : forall sg b s n count r, In b widths -> allowed sg s ->
  exists l r', gen_n sg b s n count r = Ok (l, r') /\ length l = count /\ Forall (possible_array sg b s n) l.
Proof.
  intros sg b s n count. induction count as [|count IH]; intros r Hb Ha; cbn [gen_n].
  - eexists _, _. split; [reflexivity|]. split; [reflexivity|constructor].
  - destruct (array_some sg b s n 0 r Hb Ha) as (a & r1 & E & P). rewrite E. cbn [bind].
    destruct (IH r1 Hb Ha) as (l & r2 & E2 & L & Q). rewrite E2. cbn [bind].
    eexists _, _. split; [reflexivity|]. split; [cbn [List.length]; lia|]. constructor; auto.
Qed.
(** ... and everything in them can come up, whatever is drawn afterwards. *)
Theorem C89_anything : forall sg b s n l t, In b widths -> allowed sg s -> Forall (possible_array sg b s n) l ->
  exists r, gen_n sg b s n (length l) r = Ok (l, t).
Proof.
  intros sg b s n l. induction l as [|a l IH]; intros t Hb Ha HF; cbn [gen_n List.length]; [exists t; reflexivity|].
  apply Forall_cons_iff in HF. destruct HF as (A & F). destruct (IH t Hb Ha F) as (r & E).
  destruct (array_put sg b s n 0 a r Hb Ha A) as (r0 & E0). exists r0. rewrite E0. cbn [bind]. rewrite E. reflexivity.
Qed.
(** An unsigned type has no signed strategies. *)
Theorem C89_unsigned_only : forall b s n count r, (0 < n)%nat -> (0 < count)%nat -> ~ allowed false s ->
  gen_n false b s n count r = Panic.
Proof.
  intros b s [|n] [|count] r Hn Hc Ha; try lia. destruct s; try (exfalso; apply Ha; right; split; discriminate); reflexivity.
Qed.
Example C89_data_ex1 : let r := fun n => Z.of_nat n * 777 + 5 in
  gen_n true 128 SimpleSigned 4 2 r = Ok ([[-995; 0; -218; 0]; [559; 0; -664; 0]], fun n => r (4 + n)%nat).
Proof. reflexivity. Qed.
Example C89_data_ex2 : possible_array true 128 SimpleSigned 4 [-995; 0; -218; 0] /\
  possible_array false 8 Large 2 [100; 254] /\ ~ possible_array false 8 Large 2 [100; 255].
Proof.
  split; [|split].
  - split; [reflexivity|]. intros i Hi. do 4 (destruct i as [|i]; [vm_compute; repeat split; congruence|]). lia.
  - split; [reflexivity|]. intros i Hi. do 2 (destruct i as [|i]; [vm_compute; repeat split; congruence|]). lia.
  - intros (_ & H). specialize (H 1%nat ltac:(lia)). vm_compute in H. destruct H as (_ & H). discriminate.
Qed.
Example C89_unsigned_only_ex : gen_n false 64 LargeSigned 4 1 (fun _ => 0) = Panic. Proof. reflexivity. Qed.

Section B.
Context {c : Cfg}.
Hypothesis HV : Valid.
Hypothesis HB : BITS = 256.

Lemma ushr_lit : forall v k, 0 <= k < 128 -> ushr 128 v k = Ok (v / 2 ^ k).
Proof.
  intros v k Hk. unfold ushr. destruct (in_u_reflect 32 k) as [_|F]; [|exfalso; apply F; unfold fits_u; lia].
  rewrite (proj2 (Z.ltb_lt k 128)) by lia. reflexivity.
Qed.
Lemma bytes_32 : BYTES = 32%nat.
Proof. pose proof (B8 HV). lia. Qed.
Lemma words_ok : forall x y, fits_u 128 x -> fits_u 128 y ->
  from_le_u64 false [ucast 64 x; ucast 64 (x / 2 ^ 64); ucast 64 y; ucast 64 (y / 2 ^ 64)] = Ok (ofZ (x + 2 ^ 128 * y)).
Proof.
  intros x y Hx Hy. unfold fits_u in *. unfold from_le_u64, ucast. pose proof bytes_32 as B.
  match goal with |- from_le_words _ _ ?l = _ => change l with (lenc 64 2 x ++ lenc 64 2 y) end.
  rewrite (from_le_words_ok HV 8 4 B false) by (auto; apply digits_app; split; apply digits_lenc; lia).
  cbn [ord]. change (w8 8) with 64. rewrite lval_app, !lval_lenc, length_lenc by lia. rewrite !Z.mod_small by (cbn in *; lia). reflexivity.
Qed.
Lemma glue_fits : forall sg x y, half_fits sg y -> fits sg (glue x y).
Proof.
  intros sg x y H. pose proof (Z.mod_pos_bound x (2 ^ 128) ltac:(lia)) as P. unfold fits, half_fits, fits_s, fits_u, glue in *. rewrite HB.
  set (m := x mod 2 ^ 128) in *. destruct sg; change (2 ^ 256) with (2 ^ 128 * 2 ^ 128); change (2 ^ (256 - 1)) with (2 ^ 128 * 2 ^ 127);
    change (128 - 1) with 127 in *; change (2 ^ 128) with (2 * 2 ^ 127) in *; lia.
Qed.
Lemma wide_ok : forall sg x y, half_fits sg x -> half_fits sg y -> wide sg x y = Ok (ofZ (glue x y)).
Proof.
  intros [] x y Hx Hy; cbn [wide half_fits] in *.
  - assert (U : forall v, fits_u 128 (ucast 128 v)) by (intros v; unfold fits_u, ucast; apply Z.mod_pos_bound; lia).
    unfold to_i256. cbv zeta. rewrite !ushr_lit by lia. cbn [bind]. rewrite words_ok by auto. cbn [bind].
    unfold as_signed. rewrite (mk_ok HV). f_equal. apply (ofZ_eq_mod HV). rewrite HB. unfold glue, ucast.
    replace (2 ^ 256) with (2 ^ 128 * 2 ^ 128) by reflexivity.
    rewrite <- Zplus_mod_idemp_r. rewrite Z.mul_mod_distr_l, Z.mod_mod, <- Z.mul_mod_distr_l by lia. apply Zplus_mod_idemp_r.
  - unfold to_u256. rewrite !ushr_lit by lia. cbn [bind]. rewrite words_ok by auto. unfold glue. rewrite (Z.mod_small x) by exact Hx. reflexivity.
Qed.
Lemma wide_val : forall sg x y, half_fits sg x -> half_fits sg y ->
  exists z, wide sg x y = Ok z /\ wf z /\ val sg z = glue x y.
Proof.
  intros sg x y Hx Hy. exists (ofZ (glue x y)). split; [apply wide_ok; auto|]. split; [apply (wf_ofZ HV)|].
  apply (val_ofZ_small HV), glue_fits; auto.
Qed.
End B.

(** The operands are the two halves put together; a negative low half counts as [2^128]
    more. *)
Theorem C89_operand : forall (c : Cfg) sg x y, Valid -> BITS = 256 -> half_fits sg x -> half_fits sg y ->
  exists z, wide sg x y = Ok z /\ wf z /\ num sg z = x mod 2 ^ 128 + 2 ^ 128 * y.
Proof. intros c sg x y HV HB Hx Hy. exact (wide_val HV HB sg x y Hx Hy). Qed.
Example C89_operand_ex : @wide c256_64 true (-1) 0 = Ok [2^64-1; 2^64-1; 0; 0] /\ @wide c256_64 true 5 (-1) = Ok [5; 0; 2^64-1; 2^64-1] /\
  @wide c256_32 false 5 (2 ^ 127) = Ok [5; 0; 0; 0; 0; 0; 0; 2 ^ 31].
Proof. repeat split; reflexivity. Qed.
Lemma half_possible : forall sg s j v, allowed sg s -> possible sg 128 s j v -> half_fits sg v.
Proof.
  intros sg s j v Ha P. unfold possible in P. destruct (zero_here s j); [subst v; destruct sg; vm_compute; split; congruence|].
  destruct sg; [|destruct Ha as [Ha|(A & B)]; [discriminate|]]; destruct s; try congruence;
    cbn [least bound half_fits top] in P; unfold half_fits, fits_s, fits_u, top, small, large in *; cbn in *; lia.
Qed.
(** The strategy of small signed numbers makes no negative operand: a negative value
    becomes a number just below [2^128]. *)
Theorem C89_simple_signed : forall (c : Cfg) a, Valid -> BITS = 256 -> possible_array true 128 SimpleSigned 4 a ->
  exists z, wide true (nth 0 a 0) (nth 1 a 0) = Ok z /\ wf z /\
    ((0 <= nth 0 a 0 < 1000 /\ sval z = nth 0 a 0) \/ (-1000 <= nth 0 a 0 < 0 /\ sval z = 2 ^ 128 + nth 0 a 0)).
Proof.
  intros c a HV HB (L & P). pose proof (P 0%nat ltac:(lia)) as P0. pose proof (P 1%nat ltac:(lia)) as P1.
  assert (A : allowed true SimpleSigned) by (left; reflexivity).
  destruct (wide_val HV HB true _ _ (half_possible _ _ _ _ A P0) (half_possible _ _ _ _ A P1)) as (z & E & Wz & V).
  exists z. split; [exact E|]. split; [exact Wz|]. cbn [val] in V. rewrite V. unfold glue.
  unfold possible in P0, P1. cbn in P0, P1. rewrite P1, Z.mul_0_r, Z.add_0_r.
  set (v := nth 0 a 0) in *. destruct (Z.neg_nonneg_cases v) as [N|N].
  - right. split; [lia|]. symmetry. apply (Z.mod_unique_pos _ _ (-1)); lia.
  - left. split; [lia|]. apply Z.mod_small. lia.
Qed.
Theorem C89_negative_simple_refuted : exists (c : Cfg) a, Valid /\ BITS = 256 /\ possible_array true 128 SimpleSigned 4 a /\
  nth 0 a 0 < 0 /\ exists z, wide true (nth 0 a 0) (nth 1 a 0) = Ok z /\ 0 < sval z.
Proof.
  exists c256_64, [-7; 0; 3; 0]. split; [apply valid_c256_64|]. split; [reflexivity|]. split.
  - split; [reflexivity|]. intros i Hi. do 4 (destruct i as [|i]; [vm_compute; repeat split; congruence|]). lia.
  - split; [reflexivity|]. eexists. split; [vm_compute; reflexivity|]. reflexivity.
Qed.

(** ** C90: the calls *)

(** What a benchmark is to hand to [black_box]. *)
Inductive want := WVal (v : Z) | WFlag (v : Z) (f : bool) | WOpt (o : option Z).
Definition meets {c : Cfg} (sg : bool) (w : want) (s : seen) : Prop :=
  match w, s with
  | WVal v, Val x => wf x /\ num sg x = v
  | WFlag v f, Flagged (x, g) => wf x /\ num sg x = v /\ g = f
  | WOpt (Some v), Maybe (Some x) => wf x /\ num sg x = v
  | WOpt None, Maybe None => True
  | _, _ => False
  end.
Section Tables.
Context {c : Cfg}.
Definition wrapped (sg : bool) (v : Z) : Z := if sg then swrap 256 v else v mod 2 ^ 256.
(** the operands of an array *)
Definition X (a : list Z) : Z := glue (nth 0 a 0) (nth 1 a 0).
Definition Y (a : list Z) : Z := glue (nth 2 a 0) (nth 3 a 0).
Definition U (a : list Z) : Z := nth 2 a 0 mod 2 ^ W.
Definition I (a : list Z) : Z := swrap W (nth 2 a 0).
Definition K (a : list Z) : Z := nth 2 a 0 mod 2 ^ 32 mod 256.
(** the reported overflow of a signed product (finding 2) *)
Definition flagged (v : Z) : bool := (2 ^ 255 <=? v) || (v <=? - (2 ^ 255 + 2 ^ (256 - W))).
(** the quotient of an [Option] *)
Definition divided (sg : bool) (x y q : Z) : option Z :=
  if (y =? 0) || (sg && (x =? - 2 ^ 255) && (y =? -1)) then None else Some q.
(** the bits of [v], [k] places up, those above 256 bits back at the bottom *)
Definition turned (v k : Z) : Z := (v mod 2 ^ 256 * 2 ^ k) mod 2 ^ 256 + v mod 2 ^ 256 * 2 ^ k / 2 ^ 256.

Definition table : Type := list (string * bool * (list Z -> want)).
Definition sums (op : Z -> Z -> Z) : table :=
  [ ("unsigned-256", false, fun a => WVal (wrapped false (op (X a) (Y a))));
    ("unsigned-256-ulimb", false, fun a => WVal (wrapped false (op (X a) (U a))));
    ("signed-256", true, fun a => WVal (wrapped true (op (X a) (Y a))));
    ("signed-256-ulimb", true, fun a => WVal (wrapped true (op (X a) (U a))));
    ("signed-256-ilimb", true, fun a => WVal (wrapped true (op (X a) (I a)))) ].
Definition products : table :=
  [ ("unsigned-256", false, fun a => WVal (wrapped false (X a * Y a)));
    ("unsigned-256-ulimb", false, fun a => WVal (wrapped false (X a * U a)));
    ("unsigned-check-256", false, fun a => WOpt (if X a * Y a <? 2 ^ 256 then Some (X a * Y a) else None));
    ("signed-256", true, fun a => WVal (wrapped true (X a * Y a)));
    ("signed-256-ulimb", true, fun a => WVal (wrapped true (X a * U a)));
    ("signed-256-ilimb", true, fun a => WVal (wrapped true (X a * I a)));
    ("signed-over-256", true, fun a => WFlag (wrapped true (X a * Y a)) (flagged (X a * Y a)));
    ("signed-over-256-ulimb", true, fun a => WFlag (wrapped true (X a * U a)) (flagged (X a * U a)));
    ("signed-over-256-ilimb", true, fun a => WFlag (wrapped true (X a * I a)) (flagged (X a * I a))) ].
Definition quotients : table :=
  [ ("unsigned-256", false, fun a => WOpt (divided false (X a) (Y a) (X a / Y a)));
    ("unsigned-256-ulimb", false, fun a => WOpt (divided false (X a) (U a) (X a / U a)));
    ("unsigned-256-ulimb-const", false, fun a => WOpt (Some (X a / 3141)));
    ("signed-256", true, fun a => WOpt (divided true (X a) (Y a) (Z.quot (X a) (Y a))));
    ("signed-256-ulimb", true, fun a => WOpt (divided true (X a) (U a) (X a / U a)));
    ("signed-256-ilimb", true, fun a => WOpt (divided true (X a) (I a) (Z.quot (X a) (I a)))) ].
Definition shifted : table :=
  [ ("unsigned-256-shl", false, fun a => WVal (wrapped false (X a * 2 ^ K a)));
    ("unsigned-256-shr", false, fun a => WVal (X a / 2 ^ K a)) ].
Definition rotated : table :=
  [ ("unsigned-256-left", false, fun a => WVal (turned (X a) (K a)));
    ("unsigned-256-right", false, fun a => WVal (turned (X a) ((- K a) mod 256)));
    ("signed-256-left", true, fun a => WVal (wrapped true (turned (X a) (K a))));
    ("signed-256-right", true, fun a => WVal (wrapped true (turned (X a) ((- K a) mod 256)))) ].

(** the report of a benchmark on the data [l] *)
Definition reports_one (u i : list (list Z)) (e : string * bool * (list Z -> want)) (o : string * list seen) : Prop :=
  let '(name, sg, w) := e in fst o = name /\ Forall2 (fun a s => meets sg (w a) s) (if sg : bool then i else u) (snd o).
(** a run that ends and reports what the table says *)
Definition reports (t : table) (u i : list (list Z)) (m : res (list (string * list seen))) : Prop :=
  exists out, m = Ok out /\ Forall2 (reports_one u i) t out.
End Tables.

Lemma each_all : forall A B (f : A -> res B) (R : A -> B -> Prop) l, (forall a, In a l -> exists b, f a = Ok b /\ R a b) ->
  exists r, each f l = Ok r /\ Forall2 R l r.
Proof.
  intros A B f R l H. induction l as [|a l IH]; cbn [each]; [eexists; split; [reflexivity|constructor]|].
  destruct (H a (or_introl eq_refl)) as (b & -> & Rb). destruct IH as (r & -> & F); [intros; apply H; right; auto|].
  cbn [bind]. eexists. split; [reflexivity|constructor; auto].
Qed.
(** When no call runs out of fuel: all succeed, or the loop panics. *)
Lemma each_or : forall A B (f : A -> res B) (Q : A -> Prop) (R : A -> B -> Prop) l,
  (forall a, In a l -> (exists b, f a = Ok b /\ R a b /\ Q a) \/ (f a = Panic /\ ~ Q a)) ->
  (exists r, each f l = Ok r /\ Forall2 R l r /\ Forall Q l) \/ (each f l = Panic /\ ~ Forall Q l).
Proof.
  intros A B f Q R l H. induction l as [|a l IH]; cbn [each]; [left; eexists; split; [reflexivity|split; constructor]|].
  destruct (H a (or_introl eq_refl)) as [(b & E & Rb & q)|(E & q)]; rewrite E; cbn [bind].
  - destruct (IH (fun b Hb => H b (or_intror Hb))) as [(r & E2 & F2 & F)|(E2 & F)]; rewrite E2; cbn [bind]; [left; eexists; split; [reflexivity|split; constructor; auto]|right].
    split; [reflexivity|]. intro Z. apply Forall_cons_iff in Z. tauto.
  - right. split; [reflexivity|]. intro Z. apply Forall_cons_iff in Z. tauto.
Qed.

Section Calls.
Context {c : Cfg}.
Hypothesis HV : Valid.
Hypothesis HB : BITS = 256.

Definition halves (sg : bool) (n : nat) (a : list Z) : Prop := length a = n /\ Forall (half_fits sg) a.
Lemma possible_halves : forall sg s n a, allowed sg s -> possible_array sg 128 s n a -> halves sg n a.
Proof.
  intros sg s n a Ha (L & P). split; [exact L|]. apply Forall_forall. intros v Hv. destruct (In_nth a v 0 Hv) as (i & Hi & <-).
  apply (half_possible sg s (0 + i)); auto. apply P. lia.
Qed.
Lemma get_nth : forall (a : list Z) i, (i < length a)%nat -> get a i = Ok (nth i a 0).
Proof. intros a i H. unfold get. rewrite (nth_error_nth' a 0 H). reflexivity. Qed.
Lemma h_at : forall sg n a i, halves sg n a -> (i < n)%nat -> get a i = Ok (nth i a 0) /\ half_fits sg (nth i a 0).
Proof.
  intros sg n a i (L & F) Hi. split; [apply get_nth; lia|]. rewrite Forall_forall in F. apply F, nth_In. lia.
Qed.
Lemma on_pair_eq : forall A (k : A -> seen) sg (f : list Z -> list Z -> res A) a, halves sg 4 a ->
  exists x y, on_pair k sg f a = kept k (f x y) /\ wf x /\ wf y /\ val sg x = X a /\ val sg y = Y a.
Proof.
  intros A k sg f a H. destruct (h_at _ _ _ 0 H ltac:(lia)) as (E0 & F0). destruct (h_at _ _ _ 1 H ltac:(lia)) as (E1 & F1).
  destruct (h_at _ _ _ 2 H ltac:(lia)) as (E2 & F2). destruct (h_at _ _ _ 3 H ltac:(lia)) as (E3 & F3).
  destruct (wide_val HV HB sg _ _ F0 F1) as (x & Ex & Wx & Vx). destruct (wide_val HV HB sg _ _ F2 F3) as (y & Ey & Wy & Vy).
  exists x, y. unfold on_pair. rewrite E0, E1, E2, E3. cbn [bind]. rewrite Ex. cbn [bind]. rewrite Ey. cbn [bind]. auto.
Qed.
Lemma three : forall sg n a, halves sg n a -> (3 <= n)%nat ->
  exists x, get a 0 = Ok (nth 0 a 0) /\ get a 1 = Ok (nth 1 a 0) /\ get a 2 = Ok (nth 2 a 0) /\
    wide sg (nth 0 a 0) (nth 1 a 0) = Ok x /\ wf x /\ val sg x = X a.
Proof.
  intros sg n a H Hn. destruct (h_at _ _ _ 0 H ltac:(lia)) as (E0 & F0). destruct (h_at _ _ _ 1 H ltac:(lia)) as (E1 & F1).
  destruct (h_at _ _ _ 2 H ltac:(lia)) as (E2 & F2).
  destruct (wide_val HV HB sg _ _ F0 F1) as (x & Ex & Wx & Vx). eauto 10.
Qed.
Lemma W1 : 1 <= W. Proof. destruct (W_cases HV); lia. Qed.
Lemma U_fits : forall a, fits_u W (U a).
Proof. intros a. unfold fits_u, U. apply Z.mod_pos_bound. apply Z.pow_pos_nonneg; [lia|]. pose proof W1; lia. Qed.
Lemma I_fits : forall a, fits_s W (I a).
Proof. intros a. unfold I. apply swrap_range. pose proof W1; lia. Qed.
Lemma on_ulimb_eq : forall A (k : A -> seen) sg n (f : list Z -> Z -> res A) a, halves sg n a -> (3 <= n)%nat ->
  exists x, on_ulimb k sg f a = kept k (f x (U a)) /\ wf x /\ val sg x = X a.
Proof.
  intros A k sg n f a H Hn. destruct (three sg n a H Hn) as (x & E0 & E1 & E2 & Ex & Wx & Vx). exists x.
  unfold on_ulimb. rewrite E0, E1, E2. cbn [bind]. rewrite Ex. auto.
Qed.
Lemma on_ilimb_eq : forall A (k : A -> seen) n (f : list Z -> Z -> res A) a, halves true n a -> (3 <= n)%nat ->
  exists x, on_ilimb k f a = kept k (f x (I a)) /\ wf x /\ val true x = X a.
Proof.
  intros A k n f a H Hn. destruct (three true n a H Hn) as (x & E0 & E1 & E2 & Ex & Wx & Vx). exists x.
  unfold on_ilimb. rewrite E0, E1, E2. cbn [bind]. rewrite Ex. cbn [bind]. rewrite scast_swrap by apply W1. auto.
Qed.
Lemma on_u32_eq : forall A (k : A -> seen) sg n (f : list Z -> Z -> res A) a, halves sg n a -> (3 <= n)%nat ->
  exists x m, on_u32 k sg f a = kept k (f x m) /\ wf x /\ val sg x = X a /\ 0 <= m /\ m mod BITS = K a.
Proof.
  intros A k sg n f a H Hn. destruct (three sg n a H Hn) as (x & E0 & E1 & E2 & Ex & Wx & Vx). exists x, (ucast 32 (nth 2 a 0)).
  unfold on_u32. rewrite E0, E1, E2. cbn [bind]. rewrite Ex. cbn [bind]. split; [reflexivity|]. split; [exact Wx|]. split; [exact Vx|].
  split; [apply Z.mod_pos_bound; lia|]. rewrite HB. reflexivity.
Qed.
Lemma limb_not_swapped : ~ swapped KLimb. Proof. intros (E & _). discriminate. Qed.

(** A benchmark that answers as wanted on every array. *)
Definition sound (sg : bool) (n : nat) (f : list Z -> res seen) (w : list Z -> want) : Prop :=
  forall a, halves sg n a -> exists s, f a = Ok s /\ meets sg (w a) s.
Lemma val_wrapped : forall sg v, val sg (ofZ v) = wrapped sg v.
Proof. intros sg v. rewrite (val_ofZ HV). unfold wrapz, wrapped. rewrite HB. reflexivity. Qed.
Lemma meets_val : forall sg v w, wrapped sg v = w -> meets sg (WVal w) (Val (ofZ v)).
Proof. intros sg v w <-. split; [apply (wf_ofZ HV)|apply val_wrapped]. Qed.
Lemma meets_flag : forall sg v f g, f = g -> meets sg (WFlag (wrapped sg v) f) (Flagged (ofZ v, g)).
Proof. intros sg v f g <-. split; [apply (wf_ofZ HV)|]. split; [apply val_wrapped|reflexivity]. Qed.
Lemma kept_ok : forall A (k : A -> seen) (v : A), kept k (Ok v) = Ok (k v). Proof. reflexivity. Qed.
Ltac pair_ := intros a H; match goal with |- exists s, on_pair ?k ?sg ?f a = _ /\ _ => destruct (on_pair_eq _ k sg f a H) as (x & y & E & Wx & Wy & Vx & Vy); rewrite E end.
Ltac ulimb_ := intros a H; match goal with |- exists s, on_ulimb ?k ?sg ?f a = _ /\ _ => destruct (on_ulimb_eq _ k sg _ f a H ltac:(lia)) as (x & E & Wx & Vx); rewrite E end; pose proof (U_fits a) as Fk.
Ltac ilimb_ := intros a H; match goal with |- exists s, on_ilimb ?k ?f a = _ /\ _ => destruct (on_ilimb_eq _ k _ f a H ltac:(lia)) as (x & E & Wx & Vx); rewrite E end; pose proof (I_fits a) as Fk.
Ltac u32_ := intros a H; match goal with |- exists s, on_u32 ?k ?sg ?f a = _ /\ _ => destruct (on_u32_eq _ k sg _ f a H ltac:(lia)) as (x & m & E & Wx & Vx & Pm & Em); rewrite E end.
Ltac done_ := rewrite ?kept_ok; eexists; (split; [reflexivity|]).
Lemma sound_add : forall sg, sound sg 4 (on_pair Val sg (wrapping_add sg)) (fun a => WVal (wrapped sg (X a + Y a))).
Proof. intros sg. pair_. rewrite (wrapping_add_ok HV), Vx, Vy by auto. done_. apply meets_val; reflexivity. Qed.
Lemma sound_sub : forall sg, sound sg 4 (on_pair Val sg (wrapping_sub sg)) (fun a => WVal (wrapped sg (X a - Y a))).
Proof. intros sg. pair_. rewrite (wrapping_sub_ok HV), Vx, Vy by auto. done_. apply meets_val; reflexivity. Qed.
Lemma sound_mul : forall sg, sound sg 4 (on_pair Val sg (wrapping_mul sg)) (fun a => WVal (wrapped sg (X a * Y a))).
Proof. intros sg. pair_. rewrite (wrapping_mul_ok HV), Vx, Vy by auto. done_. apply meets_val; reflexivity. Qed.
Lemma mulf_flagged : forall a b, mulf true a b = flagged (a * b).
Proof. intros a b. rewrite (mulf_ovf HV). unfold ovf, flagged. rewrite HB. reflexivity. Qed.
Lemma sound_omul : sound true 4 (on_pair Flagged true (overflowing_mul true)) (fun a => WFlag (wrapped true (X a * Y a)) (flagged (X a * Y a))).
Proof. pair_. rewrite (overflowing_mul_ok HV), Vx, Vy by auto. done_. apply meets_flag. symmetry. apply mulf_flagged. Qed.
Lemma sound_cmul : sound false 4 (on_pair Maybe false (checked_mul false)) (fun a => WOpt (if X a * Y a <? 2 ^ 256 then Some (X a * Y a) else None)).
Proof.
  pair_. rewrite (checked_mul_ok HV) by auto. pose proof (uval_range HV x Wx) as Rx. pose proof (uval_range HV y Wy) as Ry.
  cbn [val] in *. rewrite Vx, Vy in *. assert (P : 0 <= X a * Y a) by (apply Z.mul_nonneg_nonneg; lia). done_. cbn [mulf]. rewrite negb_involutive. unfold some_if.
  destruct (fitsb_reflect false (X a * Y a)) as [F|F]; unfold fits, fits_u in F; rewrite HB in F.
  - rewrite (proj2 (Z.ltb_lt _ _)) by lia. split; [apply (wf_ofZ HV)|]. apply (val_ofZ_small HV false). unfold fits, fits_u. rewrite HB. exact F.
  - rewrite (proj2 (Z.ltb_ge _ _)) by lia. exact Logic.I.
Qed.
Lemma sound_us : forall o sg, sound sg 4 (on_ulimb Val sg (wrapping_us o KLimb sg)) (fun a => WVal (wrapped sg (sopz o (X a) (U a)))).
Proof. intros o sg. ulimb_. rewrite (wrapping_us_ok HV), Vx by (auto using limb_not_swapped). done_. apply meets_val; reflexivity. Qed.
Lemma sound_is : forall o, sound true 4 (on_ilimb Val (wrapping_is o KLimb)) (fun a => WVal (wrapped true (sopz o (X a) (I a)))).
Proof. intros o. ilimb_. cbn [val] in Vx. rewrite (wrapping_is_ok HV), Vx by (auto using limb_not_swapped). done_. apply meets_val; reflexivity. Qed.
Lemma sound_ous : sound true 4 (on_ulimb Flagged true (overflowing_us SMul KLimb true)) (fun a => WFlag (wrapped true (X a * U a)) (flagged (X a * U a))).
Proof. ulimb_. rewrite (overflowing_us_ok HV), Vx by (auto using limb_not_swapped). done_. apply meets_flag. symmetry. apply mulf_flagged. Qed.
Lemma sound_ois : sound true 4 (on_ilimb Flagged (overflowing_is SMul KLimb)) (fun a => WFlag (wrapped true (X a * I a)) (flagged (X a * I a))).
Proof. ilimb_. cbn [val] in Vx. rewrite (overflowing_is_ok HV), Vx by (auto using limb_not_swapped). done_. apply meets_flag. symmetry. apply mulf_flagged. Qed.
Lemma sound_shl : sound false 3 (on_u32 Val false wrapping_shl) (fun a => WVal (wrapped false (X a * 2 ^ K a))).
Proof. u32_. cbn [val] in Vx. rewrite (wrapping_shl_ok HV), Em, Vx by auto. done_. apply meets_val; reflexivity. Qed.
Lemma sound_shr : sound false 3 (on_u32 Val false (wrapping_shr false)) (fun a => WVal (X a / 2 ^ K a)).
Proof.
  u32_. rewrite (wrapping_shr_ok HV), Em, Vx by auto. done_. apply meets_val. cbn [wrapped]. apply Z.mod_small.
  pose proof (uval_range HV x Wx) as R. cbn [val] in Vx. rewrite Vx, HB in R. assert (1 <= 2 ^ K a) by (pose proof (pow2_pos (K a)); pose proof (Z.mod_pos_bound (nth 2 a 0 mod 2 ^ 32) 256); unfold K in *; lia).
  split; [apply Z.div_pos; lia|]. apply Z.div_lt_upper_bound; nia.
Qed.
Lemma uval_mod_val : forall sg x, wf x -> val sg x mod 2 ^ 256 = uval x.
Proof.
  intros sg x Hx. destruct (val_cong HV sg x Hx) as (k & ->). rewrite HB. rewrite Z.mod_add by lia. apply Z.mod_small. pose proof (uval_range HV x Hx) as R. rewrite HB in R. exact R.
Qed.
Lemma rotv_turned : forall sg x k, wf x -> rotv (2 ^ BITS) (uval x) k = turned (val sg x) k.
Proof. intros sg x k Hx. unfold rotv, turned. rewrite uval_mod_val, HB by auto. reflexivity. Qed.
Lemma neg_mod : forall m, (- m) mod 256 = (- (m mod 256)) mod 256.
Proof. intros m. pose proof (Z.div_mod m 256 ltac:(lia)) as E. rewrite E at 1. replace (- (256 * (m / 256) + m mod 256)) with (- (m mod 256) + (- (m / 256)) * 256) by ring. apply Z.mod_add. lia. Qed.
Lemma turned_wrapped : forall v k, 0 <= k < 256 -> wrapped false (turned v k) = turned v k.
Proof.
  intros v k Hk. cbn [wrapped]. apply Z.mod_small. unfold turned. set (u := v mod 2 ^ 256). assert (R : 0 <= u < 2 ^ 256) by (apply Z.mod_pos_bound; lia).
  set (p := 2 ^ k). assert (Pp : 0 < p) by (apply Z.pow_pos_nonneg; lia). set (q := 2 ^ (256 - k)). assert (Pq : 0 < q) by (apply Z.pow_pos_nonneg; lia).
  assert (PQ : 2 ^ 256 = p * q) by (unfold p, q; rewrite <- Z.pow_add_r by lia; f_equal; lia).
  assert (E1 : u * p / 2 ^ 256 = u / q). { rewrite PQ, Z.mul_comm. rewrite Z.div_mul_cancel_l by lia. reflexivity. }
  assert (E2 : (u * p) mod 2 ^ 256 = p * (u mod q)). { rewrite PQ, Z.mul_comm. rewrite Z.mul_mod_distr_l by lia. reflexivity. }
  rewrite E1, E2. pose proof (Z.mod_pos_bound u q Pq). assert (0 <= u / q < p); [|rewrite PQ; nia].
  split; [apply Z.div_pos; lia|]. apply Z.div_lt_upper_bound; [lia|]. rewrite PQ in R. lia.
Qed.
Lemma K_range : forall a, 0 <= K a < 256. Proof. intros a. apply Z.mod_pos_bound. lia. Qed.
Lemma sound_rotl : forall sg w, (forall a, w a = wrapped sg (turned (X a) (K a))) -> sound sg 3 (on_u32 Val sg rotate_left) (fun a => WVal (w a)).
Proof. intros sg w Hw. u32_. rewrite (rotate_left_ok HV), Em, (rotv_turned sg), Vx by auto. done_. apply meets_val. symmetry. apply Hw. Qed.
Lemma sound_rotr : forall sg w, (forall a, w a = wrapped sg (turned (X a) ((- K a) mod 256))) -> sound sg 3 (on_u32 Val sg rotate_right) (fun a => WVal (w a)).
Proof.
  intros sg w Hw. u32_. rewrite (rotate_right_ok HV) by auto. rewrite HB in *. rewrite neg_mod, Em. rewrite <- HB, (rotv_turned sg), Vx by auto.
  done_. apply meets_val. rewrite HB. symmetry. apply Hw.
Qed.
Lemma sound_dus : forall sg, sound sg 4 (on_ulimb Maybe sg (checked_div_us KLimb sg)) (fun a => WOpt (divided sg (X a) (U a) (X a / U a))).
Proof.
  intros sg. ulimb_. unfold divided. assert (M1 : (U a =? -1) = false) by (apply Z.eqb_neq; unfold fits_u in Fk; lia). rewrite M1, andb_false_r, orb_false_r.
  destruct (Z.eqb_spec (U a) 0) as [Z0|N0].
  - rewrite Z0. rewrite (proj1 (PropsForms.C61_checked_zero c KLimb sg x HV Wx)). done_. exact Logic.I.
  - destruct (PropsForms.C61_by_unsigned c KLimb sg x (U a) HV Wx Fk N0) as (_ & _ & _ & _ & _ & _ & (q & Eq & G) & _); [apply limb_exact; cbn; lia|].
    rewrite Eq. done_. change (PropsForms.num sg x) with (val sg x) in G. rewrite Vx in G.
    destruct sg; destruct G as (r & Er & Wr & Vr); inversion Er; subst r; split; auto.
Qed.
Lemma sound_const : sound false 4 (on_ulimb Maybe false (fun x _ => checked_div_us KLimb false x DIV_FACTOR)) (fun a => WOpt (Some (X a / 3141))).
Proof.
  ulimb_. destruct (PropsForms.C61_by_unsigned c KLimb false x 3141 HV Wx) as (_ & _ & _ & _ & _ & _ & (q & Eq & G) & _).
  - cbn [kbits]. unfold fits_u. destruct (W_cases HV) as [-> | ->]; lia.
  - lia.
  - apply limb_exact; cbn; lia.
  - unfold DIV_FACTOR. rewrite Eq. done_. change (PropsForms.num false x) with (val false x) in G. rewrite Vx in G. destruct G as (r & Er & Wr & Vr); inversion Er; subst r; split; auto.
Qed.
Lemma sound_dis : sound true 4 (on_ilimb Maybe (checked_div_is KLimb)) (fun a => WOpt (divided true (X a) (I a) (Z.quot (X a) (I a)))).
Proof.
  ilimb_. unfold divided. destruct (Z.eqb_spec (I a) 0) as [Z0|N0].
  - rewrite Z0. destruct (PropsForms.C61_checked_zero c KLimb true x HV Wx) as (_ & _ & -> & _). done_. exact Logic.I.
  - destruct (PropsForms.C61_by_signed c KLimb x (I a) HV Wx Fk N0) as (_ & _ & _ & _ & A & B); [apply limb_exact; cbn; lia|].
    cbn [val] in Vx. rewrite Vx, HB in A, B. change (256 - 1) with 255 in A, B. cbn [orb andb].
    destruct (Z.eqb_spec (X a) (- 2 ^ 255)) as [E1|E1]; [destruct (Z.eqb_spec (I a) (-1)) as [E2|E2]|]; cbn [andb].
    + destruct B as (-> & _); [auto|]. done_. exact Logic.I.
    + destruct A as (_ & _ & (q & Eq & (r & Er & Wr & Vr)) & _); [tauto|]. rewrite Eq. done_. inversion Er; subst r. split; auto.
    + destruct A as (_ & _ & (q & Eq & (r & Er & Wr & Vr)) & _); [tauto|]. rewrite Eq. done_. inversion Er; subst r. split; auto.
Qed.

Lemma used_allowed : forall s sg, used s = true -> allowed sg s.
Proof. intros [] sg H; try discriminate; right; split; discriminate. Qed.
Lemma in128 : In 128 widths. Proof. cbn; auto 10. Qed.
Definition sound_entry (sg : bool) (n : nat) (b : bench) (e : string * bool * (list Z -> want)) : Prop :=
  snd (fst e) = sg /\ fst (fst e) = fst b /\ sound sg n (snd b) (snd e).
Lemma sound_run : forall sg s n u i b e, allowed sg s -> Forall (possible_array sg 128 s n) (if sg then i else u) -> sound_entry sg n b e ->
  exists o, run_bench (if sg then i else u) b = Ok o /\ reports_one u i e o.
Proof.
  intros sg s n u i [nm f] [[nm' sg'] w] Ha P (E1 & E2 & S). cbn [fst snd] in *. subst nm' sg'. unfold run_bench. cbn [fst snd].
  destruct (each_all _ _ f (fun a s => meets sg (w a) s) (if sg then i else u)) as (r & E & F).
  - intros a Ia. apply S. rewrite Forall_forall in P. apply (possible_halves sg s); auto.
  - rewrite E. cbn [bind]. eexists. split; [reflexivity|]. cbn. auto.
Qed.
Lemma sound_each : forall sg s n u i bs t, allowed sg s -> Forall (possible_array sg 128 s n) (if sg then i else u) -> Forall2 (sound_entry sg n) bs t ->
  exists o, each (run_bench (if sg then i else u)) bs = Ok o /\ Forall2 (reports_one u i) t o.
Proof.
  intros sg s n u i bs t Ha P H. induction H as [|b e bs t Hb _ IH]; cbn [each]; [eexists; split; [reflexivity|constructor]|].
  destruct (sound_run sg s n u i b e Ha P Hb) as (o & -> & Ro). destruct IH as (r & -> & F). cbn [bind]. eexists. split; [reflexivity|constructor; auto].
Qed.
Lemma group_sound : forall g s count r t1 t2, used s = true -> Forall2 (sound_entry false (entries g)) (over_unsigned g) t1 -> Forall2 (sound_entry true (entries g)) (over_signed g) t2 ->
  exists u r1 i r2, gen_n false 128 s (entries g) count r = Ok (u, r1) /\ gen_n true 128 s (entries g) count r1 = Ok (i, r2) /\
  reports (t1 ++ t2) u i (run_group g s count r).
Proof.
  intros g s count r t1 t2 Hs H1 H2. unfold run_group.
  destruct (C89_data false 128 s (entries g) count r in128 (used_allowed s false Hs)) as (u & r1 & E1 & _ & P1).
  destruct (C89_data true 128 s (entries g) count r1 in128 (used_allowed s true Hs)) as (i & r2 & E2 & _ & P2).
  exists u, r1, i, r2. split; [exact E1|]. split; [exact E2|]. rewrite E1. cbn [bind].
  destruct (sound_each false s _ u i _ _ (used_allowed s false Hs) P1 H1) as (o1 & O1 & F1). cbn in O1. rewrite O1. cbn [bind]. rewrite E2. cbn [bind].
  destruct (sound_each true s _ u i _ _ (used_allowed s true Hs) P2 H2) as (o2 & O2 & F2). cbn in O2. rewrite O2. cbn [bind].
  eexists. split; [reflexivity|]. apply Forall2_app; auto.
Qed.

(** the wide division of one array does not panic *)
Definition divides (a : list Z) : Prop := ~ division_fails (X a) (Y a).
Definition wide_quotient (sg : bool) (a : list Z) : want := WOpt (divided sg (X a) (Y a) (if sg then Z.quot (X a) (Y a) else X a / Y a)).
Lemma on_div : forall sg a, halves sg 4 a ->
  (exists s, on_pair Maybe sg (checked_div sg) a = Ok s /\ meets sg (wide_quotient sg a) s /\ divides a) \/
  (on_pair Maybe sg (checked_div sg) a = Panic /\ ~ divides a).
Proof.
  intros sg a H. destruct (on_pair_eq _ Maybe sg (checked_div sg) a H) as (x & y & E & Wx & Wy & Vx & Vy). rewrite E.
  unfold divides, wide_quotient. rewrite <- Vx, <- Vy. rewrite (checked_div_ok HV) by auto. unfold chko.
  assert (D : dnone sg (val sg x) (val sg y) = (val sg y =? 0) || (sg && (val sg x =? - 2 ^ 255) && (val sg y =? -1))).
  { unfold dnone, dovf. rewrite ?HB. destruct sg; reflexivity. }
  unfold divided. rewrite <- D. destruct (dnone sg (val sg x) (val sg y)) eqn:D'.
  - left. eexists. split; [reflexivity|]. split; [exact Logic.I|]. intros (B & _). pose proof (pow_slack HV) as PS. symmetry in D. apply orb_true_iff in D. destruct D as [D|D].
    + apply Z.eqb_eq in D. rewrite D in B. cbn in B. lia.
    + apply andb_prop in D. destruct D as (_ & D). apply Z.eqb_eq in D. rewrite D in B.
      cbn [Z.abs] in B. assert (1 < 2 ^ (BITS - W)); [|lia]. apply (Z.pow_gt_1 2); [lia|]. destruct (W_cases HV); lia.
  - assert (Y0 : val sg y <> 0) by (symmetry in D; apply orb_false_iff in D; destruct D as (D & _); apply Z.eqb_neq; auto).
    assert (Q : fits sg (Z.quot (val sg x) (val sg y))).
    { destruct sg; cbn [val fits] in *.
      - pose proof (sval_range HV x Wx) as R. assert (~ (sval x = - 2 ^ 255 /\ sval y = -1)).
        { intros (A & B). symmetry in D. apply orb_false_iff in D. destruct D as (_ & D). cbn [andb] in D. rewrite (proj2 (Z.eqb_eq _ _) A), (proj2 (Z.eqb_eq _ _) B) in D. discriminate. }
        apply (PropsDiv.quot_fits HV); auto; [apply (sval_range HV y Wy)|]. rewrite HB. exact H0.
      - pose proof (uval_range HV x Wx) as R. pose proof (uval_range HV y Wy) as R2. unfold fits_u. rewrite Z.quot_div_nonneg by lia.
        split; [apply Z.div_pos; lia|]. apply Z.div_lt_upper_bound; nia. }
    assert (QQ : (if sg then Z.quot (val sg x) (val sg y) else val sg x / val sg y) = Z.quot (val sg x) (val sg y)).
    { destruct sg; [reflexivity|]. cbn [val] in *. pose proof (uval_range HV x Wx). pose proof (uval_range HV y Wy). rewrite Z.quot_div_nonneg by lia. reflexivity. }
    rewrite QQ. unfold sq. destruct (outcomes HV (val sg x) (val sg y) Y0) as [(F & _ & S)|[(F & _ & S)|(F & _ & t & _ & _ & S)]]; rewrite S; cbn [option_map fst lift_o kept bind].
    + right. split; [reflexivity|tauto].
    + left. eexists. split; [reflexivity|]. split; [split; [apply (wf_ofZ HV)|apply (val_ofZ_small HV); auto]|exact F].
    + left. eexists. split; [reflexivity|]. split; [split; [apply (wf_ofZ HV)|apply (val_ofZ_small HV); auto]|exact F].
Qed.
Lemma div_each : forall sg s u i bs t nm, allowed sg s -> Forall (possible_array sg 128 s 4) (if sg then i else u) -> Forall2 (sound_entry sg 4) bs t ->
  (exists o, each (run_bench (if sg then i else u)) ((nm, on_pair Maybe sg (checked_div sg)) :: bs) = Ok o /\ Forall2 (reports_one u i) ((nm, sg, wide_quotient sg) :: t) o /\ Forall divides (if sg then i else u)) \/
  (each (run_bench (if sg then i else u)) ((nm, on_pair Maybe sg (checked_div sg)) :: bs) = Panic /\ ~ Forall divides (if sg then i else u)).
Proof.
  intros sg s u i bs t nm Ha P Sb. cbn [each]. unfold run_bench at 1 3. cbn [fst snd].
  destruct (each_or _ _ (on_pair Maybe sg (checked_div sg)) divides (fun a s => meets sg (wide_quotient sg a) s) (if sg then i else u)) as [(r & E & R & F)|(E & F)].
  - intros a Ia. apply on_div. rewrite Forall_forall in P. apply (possible_halves sg s); auto.
  - left. rewrite E. cbn [bind]. destruct (sound_each sg s 4 u i bs t Ha P Sb) as (o & -> & Fo). cbn [bind]. eexists. split; [reflexivity|]. split; [|exact F].
    constructor; [|exact Fo]. split; [reflexivity|exact R].
  - right. rewrite E. split; [reflexivity|exact F].
Qed.
End Calls.

Ltac entry L := split; [reflexivity|split; [reflexivity|exact L]].
(** The benchmarks of addition, subtraction, multiplication, shifts and rotations run to
    the end, whatever the generator, and compute what their names say. *)
Theorem C90_run : forall (c : Cfg) s count r, Valid -> BITS = 256 -> used s = true ->
  exists u r1 i r2, gen_n false 128 s 4 count r = Ok (u, r1) /\ gen_n true 128 s 4 count r1 = Ok (i, r2) /\
  reports (sums Z.add) u i (run_group add_group s count r) /\ reports (sums Z.sub) u i (run_group sub_group s count r) /\
  reports products u i (run_group mul_group s count r).
Proof.
  intros c s count r HV HB Hs.
  destruct (group_sound add_group s count r (firstn 2 (sums Z.add)) (skipn 2 (sums Z.add)) Hs) as (u & r1 & i & r2 & E1 & E2 & R1); cbn [entries add_group over_unsigned over_signed firstn skipn sums].
  { repeat constructor; [exact (sound_add HV HB false)|exact (sound_us HV HB SAdd false)]. }
  { repeat constructor; [exact (sound_add HV HB true)|exact (sound_us HV HB SAdd true)|exact (sound_is HV HB SAdd)]. }
  destruct (group_sound sub_group s count r (firstn 2 (sums Z.sub)) (skipn 2 (sums Z.sub)) Hs) as (u' & r1' & i' & r2' & E1' & E2' & R2); cbn [entries sub_group over_unsigned over_signed firstn skipn sums].
  { repeat constructor; [exact (sound_sub HV HB false)|exact (sound_us HV HB SSub false)]. }
  { repeat constructor; [exact (sound_sub HV HB true)|exact (sound_us HV HB SSub true)|exact (sound_is HV HB SSub)]. }
  cbn [entries add_group sub_group] in *. rewrite E1 in E1'. inversion E1'; subst u' r1'. rewrite E2 in E2'. inversion E2'; subst i' r2'. clear E1' E2'.
  destruct (group_sound mul_group s count r (firstn 3 products) (skipn 3 products) Hs) as (u' & r1' & i' & r2' & E1' & E2' & R3); cbn [entries mul_group over_unsigned over_signed firstn skipn products].
  { repeat constructor; [exact (sound_mul HV HB false)|exact (sound_us HV HB SMul false)|exact (sound_cmul HV HB)]. }
  { repeat constructor; [exact (sound_mul HV HB true)|exact (sound_us HV HB SMul true)|exact (sound_is HV HB SMul)|exact (sound_omul HV HB)|exact (sound_ous HV HB)|exact (sound_ois HV HB)]. }
  cbn [entries mul_group] in *. rewrite E1 in E1'. inversion E1'; subst u' r1'. rewrite E2 in E2'. inversion E2'; subst i' r2'.
  exists u, r1, i, r2. rewrite !firstn_skipn in *. auto 10.
Qed.
Theorem C90_run_bits : forall (c : Cfg) s count r, Valid -> BITS = 256 -> used s = true ->
  exists u r1 i r2, gen_n false 128 s 3 count r = Ok (u, r1) /\ gen_n true 128 s 3 count r1 = Ok (i, r2) /\
  reports shifted u i (run_group shift_group s count r) /\ reports rotated u i (run_group rotate_group s count r).
Proof.
  intros c s count r HV HB Hs.
  destruct (group_sound shift_group s count r (firstn 2 shifted) (skipn 2 shifted) Hs) as (u & r1 & i & r2 & E1 & E2 & R1); cbn [entries shift_group over_unsigned over_signed firstn skipn shifted].
  { repeat constructor; [exact (sound_shl HV HB)|exact (sound_shr HV HB)]. }
  { constructor. }
  destruct (group_sound rotate_group s count r (firstn 2 rotated) (skipn 2 rotated) Hs) as (u' & r1' & i' & r2' & E1' & E2' & R2); cbn [entries rotate_group over_unsigned over_signed firstn skipn rotated].
  { repeat constructor; cbn [fst snd].
    - apply (sound_rotl HV HB false). intros a. symmetry. apply turned_wrapped, K_range.
    - apply (sound_rotr HV HB false). intros a. symmetry. apply turned_wrapped. apply Z.mod_pos_bound. lia. }
  { repeat constructor; cbn [fst snd]; [apply (sound_rotl HV HB true)|apply (sound_rotr HV HB true)]; reflexivity. }
  cbn [entries shift_group rotate_group] in *. rewrite E1 in E1'. inversion E1'; subst u' r1'. rewrite E2 in E2'. inversion E2'; subst i' r2'.
  exists u, r1, i, r2. rewrite !firstn_skipn in *. auto 10.
Qed.
(** The benchmarks of division run to the end and report the quotients exactly when no pair of
    operands makes the wide division panic; otherwise they panic. *)
Theorem C90_division : forall (c : Cfg) s count r, Valid -> BITS = 256 -> used s = true ->
  exists u r1 i r2, gen_n false 128 s 4 count r = Ok (u, r1) /\ gen_n true 128 s 4 count r1 = Ok (i, r2) /\
  let fine := Forall divides u /\ Forall divides i in
  (reports quotients u i (run_group div_group s count r) /\ fine) \/ (run_group div_group s count r = Panic /\ ~ fine).
Proof.
  intros c s count r HV HB Hs. unfold run_group.
  destruct (C89_data false 128 s 4 count r in128 (used_allowed s false Hs)) as (u & r1 & E1 & _ & P1).
  destruct (C89_data true 128 s 4 count r1 in128 (used_allowed s true Hs)) as (i & r2 & E2 & _ & P2).
  exists u, r1, i, r2. split; [exact E1|]. split; [exact E2|]. cbv zeta. cbn [entries over_unsigned over_signed div_group]. rewrite E1. cbn [bind].
  assert (S1 : Forall2 (sound_entry false 4) (tl (over_unsigned div_group)) (tl (firstn 3 quotients))).
  { cbn [tl firstn quotients over_unsigned div_group]. repeat constructor; [exact (sound_dus HV HB false)|exact (sound_const HV HB)]. }
  assert (S2 : Forall2 (sound_entry true 4) (tl (over_signed div_group)) (tl (skipn 3 quotients))).
  { cbn [tl skipn quotients over_signed div_group]. repeat constructor; [exact (sound_dus HV HB true)|exact (sound_dis HV HB)]. }
  destruct (div_each HV HB false s u i _ _ "unsigned-256"%string (used_allowed s false Hs) P1 S1) as [(o1 & A & R1 & F)|(A & F)];
    cbn [tl over_unsigned div_group] in A; rewrite A; cbn [bind]; [|right; tauto].
  rewrite E2. cbn [bind].
  destruct (div_each HV HB true s u i _ _ "signed-256"%string (used_allowed s true Hs) P2 S2) as [(o2 & A2 & R2 & F2)|(A2 & F2)];
    cbn [tl over_signed div_group] in A2; rewrite A2; cbn [bind]; [left|right; tauto].
  split; [|auto]. eexists. split; [reflexivity|]. exact (Forall2_app R1 R2).
Qed.
(** Simple data never panic. *)
Theorem C90_simple : forall (c : Cfg) count r, Valid -> BITS = 256 ->
  exists u r1 i r2, gen_n false 128 Simple 4 count r = Ok (u, r1) /\ gen_n true 128 Simple 4 count r1 = Ok (i, r2) /\
  reports quotients u i (run_group div_group Simple count r).
Proof.
  intros c count r HV HB. destruct (C90_division c Simple count r HV HB eq_refl) as (u & r1 & i & r2 & E1 & E2 & H).
  exists u, r1, i, r2. split; [exact E1|]. split; [exact E2|]. destruct H as [(H & _)|(_ & H)]; [exact H|]. exfalso. apply H.
  destruct (C89_data false 128 Simple 4 count r in128 (used_allowed Simple false eq_refl)) as (u' & r1' & E1' & _ & P1). rewrite E1 in E1'. inversion E1'; subst u' r1'.
  destruct (C89_data true 128 Simple 4 count r1 in128 (used_allowed Simple true eq_refl)) as (i' & r2' & E2' & _ & P2). rewrite E2 in E2'. inversion E2'; subst i' r2'.
  assert (G : forall sg a, possible_array sg 128 Simple 4 a -> divides a).
  { intros sg a (_ & P) ((B & _) & _). pose proof (P 2%nat ltac:(lia)) as Q2. pose proof (P 3%nat ltac:(lia)) as Q3.
    unfold possible in Q2, Q3. cbn in Q2, Q3. unfold Y, glue in B. rewrite Q3, Z.mul_0_r, Z.add_0_r, Z.mod_small in B by lia.
    rewrite Z.abs_eq in B by lia. assert (1000 <= 2 ^ (BITS - W)); [|lia].
    apply Z.le_trans with (2 ^ 10); [lia|]. apply Z.pow_le_mono_r; [lia|]. destruct (W_cases HV); lia. }
  split; [revert P1|revert P2]; apply Forall_impl; apply G.
Qed.
(** Uniform and large data can: one unlucky array is enough. *)
Theorem C90_division_refuted : forall s count, s = Uniform \/ s = Large -> (0 < count)%nat ->
  exists r, run_group (@div_group c256_64) s count r = Panic.
Proof.
  intros s count Hs Hc. set (a := [2 ^ 123 - 1; 2 ^ 123; 2 ^ 122; 2 ^ 122]).
  assert (Us : used s = true) by (destruct Hs as [->| ->]; reflexivity).
  assert (A : possible_array false 128 s 4 a).
  { split; [reflexivity|]. intros i Hi. do 4 (destruct i as [|i]; [destruct Hs as [->| ->]; vm_compute; split; congruence|]). lia. }
  destruct (C89_anything false 128 s 4 (repeat a count) (fun _ => 0) in128 (used_allowed s false Us)) as (r & E).
  { apply Forall_forall. intros b Hb. apply repeat_spec in Hb. subst b. exact A. }
  rewrite repeat_length in E. exists r.
  destruct (C90_division c256_64 s count r valid_c256_64 eq_refl Us) as (u & r1 & i & r2 & E1 & E2 & [(_ & F & _)|(H & _)]); [|exact H].
  exfalso. rewrite E in E1. inversion E1; subst u. destruct count as [|count]; [lia|]. cbn [repeat] in F. apply Forall_inv in F.
  apply F. split; [vm_compute; split; congruence|]. vm_compute. reflexivity.
Qed.
(** The quotients of large unsigned data stay below 64. *)
Theorem C90_large_quotient : forall a, possible_array false 128 Large 4 a ->
  0 <= glue (nth 0 a 0) (nth 1 a 0) / glue (nth 2 a 0) (nth 3 a 0) < 64.
Proof.
  intros a (_ & P). pose proof (P 0%nat ltac:(lia)) as Q0. pose proof (P 1%nat ltac:(lia)) as Q1. pose proof (P 2%nat ltac:(lia)) as Q2. pose proof (P 3%nat ltac:(lia)) as Q3.
  unfold possible in *. cbn in Q0, Q1, Q2, Q3. unfold glue. rewrite !Z.mod_small by lia.
  set (x0 := nth 0 a 0) in *. set (x1 := nth 1 a 0) in *. set (y0 := nth 2 a 0) in *. set (y1 := nth 3 a 0) in *.
  split; [apply Z.div_pos; lia|]. apply Z.div_lt_upper_bound; lia.
Qed.
(** The functions kept for reading the assembly are the products. *)
Theorem C90_assembly : forall (c : Cfg) x y, Valid -> wf x -> wf y ->
  right true (mul_signed_i256 x y) (swrap BITS (sval x * sval y)) /\ right false (mul_unsigned_i256 x y) ((uval x * uval y) mod 2 ^ BITS) /\
  exists z f, overflowing_mul_signed_i256 x y = Ok (z, f) /\ wf z /\ uval z = (uval x * uval y) mod 2 ^ BITS /\
    (f = true <-> 2 ^ BITS <= uval x * uval y).
Proof.
  intros c x y HV Hx Hy. unfold right, mul_signed_i256, mul_unsigned_i256, overflowing_mul_signed_i256.
  rewrite !(wrapping_mul_ok HV), (overflowing_mul_ok HV) by auto. split; [|split].
  - eexists. split; [reflexivity|]. split; [apply (wf_ofZ HV)|]. apply (val_ofZ HV true).
  - eexists. split; [reflexivity|]. split; [apply (wf_ofZ HV)|]. apply (val_ofZ HV false).
  - eexists _, _. split; [reflexivity|]. split; [apply (wf_ofZ HV)|]. split; [apply (val_ofZ HV false)|]. cbn [val mulf].
    pose proof (uval_range HV x Hx). pose proof (uval_range HV y Hy). assert (0 <= uval x * uval y) by (apply Z.mul_nonneg_nonneg; lia).
    destruct (fitsb_reflect false (uval x * uval y)) as [F|F]; unfold fits, fits_u in F; (split; [intro G|intro G]); cbn [negb] in *; try discriminate; try reflexivity; lia.
Qed.
(** The third is the unsigned product despite its name: it flags (-1) * 2. *)
Theorem C90_signed_name_refuted : exists (c : Cfg) x y, Valid /\ wf x /\ wf y /\ fits_s BITS (sval x * sval y) /\
  exists z, overflowing_mul_signed_i256 x y = Ok (z, true).
Proof.
  exists c256_64, (@ofZ c256_64 (-1)), (@ofZ c256_64 2). split; [apply valid_c256_64|]. split; [apply (wf_ofZ valid_c256_64)|]. split; [apply (wf_ofZ valid_c256_64)|].
  split; [vm_compute; split; congruence|]. eexists. vm_compute. reflexivity.
Qed.
Definition some_rng : rng := fun n => (Z.of_nat n + 3) ^ 40.
Definition ends {A} (m : res A) : bool := match m with Ok _ => true | _ => false end.
Example C90_run_ex : run_group (@add_group c256_64) Simple 1 (fun n => Z.of_nat n + 5) =
  Ok [("unsigned-256", [Val [11; 0; 0; 0]]); ("unsigned-256-ulimb", [Val [11; 0; 0; 0]]);
      ("signed-256", [Val [15; 0; 0; 0]]); ("signed-256-ulimb", [Val [15; 0; 0; 0]]); ("signed-256-ilimb", [Val [15; 0; 0; 0]])] /\
  ends (run_group (@mul_group c256_64) Uniform 2 some_rng) = true.
Proof. split; vm_compute; reflexivity. Qed.
Example C90_run_bits_ex : ends (run_group (@rotate_group c256_32) Large 2 some_rng) = true /\
  run_group (@shift_group c256_64) Simple 1 (fun n => Z.of_nat n * 256 + 5) =
    Ok [("unsigned-256-shl", [Val [160; 0; 0; 0]]); ("unsigned-256-shr", [Val [0; 0; 0; 0]])].
Proof. split; vm_compute; reflexivity. Qed.
Example C90_division_ex1 : ends (run_group (@div_group c256_64) Large 1 some_rng) = true.
Proof. vm_compute. reflexivity. Qed.
Example C90_division_ex2 : let r := fun n => nth n [2 ^ 123 - 1 - 2 ^ 122; 2 ^ 122; 0; 0] 0 in
  run_group (@div_group c256_64) Large 1 r = Panic.
Proof. vm_compute. reflexivity. Qed.
Example C90_simple_ex : let eight := [Maybe (Some [8; 0; 0; 0; 0; 0; 0; 0])] in
  run_group (@div_group c256_32) Simple 1 (fun n => if Nat.even n then 70 else 8) =
    Ok [("unsigned-256", eight); ("unsigned-256-ulimb", eight); ("unsigned-256-ulimb-const", [Maybe (Some (repeat 0 8))]);
        ("signed-256", eight); ("signed-256-ulimb", eight); ("signed-256-ilimb", eight)] /\
  run_group (@div_group c256_64) Simple 1 (fun n => if Nat.even n then 70 else 0) =
    Ok [("unsigned-256", [Maybe None]); ("unsigned-256-ulimb", [Maybe None]); ("unsigned-256-ulimb-const", [Maybe (Some (repeat 0 4))]);
        ("signed-256", [Maybe None]); ("signed-256-ulimb", [Maybe None]); ("signed-256-ilimb", [Maybe None])].
Proof. split; vm_compute; reflexivity. Qed.
Example C90_large_quotient_ex : possible_array false 128 Large 4 [2 ^ 127; 2 ^ 128 - 2; 2 ^ 122; 2 ^ 122] /\
  glue (2 ^ 127) (2 ^ 128 - 2) / glue (2 ^ 122) (2 ^ 122) = 63.
Proof.
  split; [|vm_compute; reflexivity]. split; [reflexivity|]. intros i Hi. do 4 (destruct i as [|i]; [vm_compute; split; congruence|]). lia.
Qed.
Example C90_assembly_ex : @mul_signed_i256 c256_64 [2^64-1;2^64-1;2^64-1;2^64-1] [3;0;0;0] = Ok [2^64-3;2^64-1;2^64-1;2^64-1] /\
  @overflowing_mul_signed_i256 c256_64 [0;0;0;1] [2^63;1;0;0] = Ok ([0;0;0;2^63], true).
Proof. split; vm_compute; reflexivity. Qed.

(** ** Assumptions (each must print "Closed under the global context") *)

Print Assumptions C89_data.
Print Assumptions C89_anything.
Print Assumptions C89_unsigned_only.
Print Assumptions C89_operand.
Print Assumptions C89_simple_signed.
Print Assumptions C89_negative_simple_refuted.
Print Assumptions C90_run.
Print Assumptions C90_run_bits.
Print Assumptions C90_division.
Print Assumptions C90_simple.
Print Assumptions C90_division_refuted.
Print Assumptions C90_large_quotient.
Print Assumptions C90_assembly.
Print Assumptions C90_signed_name_refuted.
