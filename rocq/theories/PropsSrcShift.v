(** * Properties: the text of src/math/shift.rs and src/math/rotate.rs (C112)

    As C111, for the shifts and rotations: the text of the two files, read by
    MText.v and run by MRun.v, does what the model does, for every setting,
    number of elements, element and amount. *)

Require Import ZArith List Bool String Lia.
From Verif Require Import Prim Spec MText SrcText MRun MShift PropsMath PText PTextShift PTextShiftR PTextRot.
Import ListNotations.
Local Open Scope string_scope.
Local Open Scope list_scope.
Local Open Scope Z_scope.

Notation len := List.length.
Notation u32 n := (VI (IU 32) n).

(** the names in shift.rs, with the width of an element and the signedness *)
Definition lefts : list (string * Z * bool) :=
  [("left_u32", 32, false); ("left_u64", 64, false); ("left_u128", 128, false);
   ("left_i32", 32, true); ("left_i64", 64, true); ("left_i128", 128, true)].
Definition rights : list (string * Z * bool) :=
  [("right_u32", 32, false); ("right_u64", 64, false); ("right_u128", 128, false);
   ("right_i32", 32, true); ("right_i64", 64, true); ("right_i128", 128, true)].
(** and in rotate.rs, with the width *)
Definition rot_lefts : list (string * Z) := [("left_u32", 32); ("left_u64", 64); ("left_u128", 128)].
Definition rot_rights : list (string * Z) := [("right_u32", 32); ("right_u64", 64); ("right_u128", 128)].

Ltac each H := repeat (destruct H as [H|H]; [injection H as <- <- <- || injection H as <- <-|]); try contradiction.
Ltac w3 := first [left; reflexivity | right; left; reflexivity | right; right; reflexivity].
Ltac one_call Hc :=
  enter_s; one_stmt; tidy; rewrite Hc; unfold v_arr;
  match goal with |- _ = bind ?r _ => destruct r as [?l| |]; reflexivity end.

Theorem C112_left : forall limb32 p64 (c : Cfg) pw fuel d, 32 <= pw -> forall f w sg x s,
  In (f, w, sg) lefts -> 0 <= s < 2 ^ 32 -> Z.of_nat (len x) * w < 2 ^ 32 -> (len x + 1 < fuel)%nat ->
  run pw fuel (3 + d) (prog_shift limb32 p64) f [] [VA (IU w) x; u32 s] =
  let* l := shl_array w x s in Ok (VA (IU w) l).
Proof.
  intros limb32 p64 c pw fuel d Hpw f w sg x s Hin Hs Hn Hf. rewrite prog_shift_eq. cbn [Nat.add].
  assert (Hw : width3 w) by (unfold lefts in Hin; cbn [In] in Hin; each Hin; w3).
  pose proof (t_left (is64 limb32 p64) w Hw pw Hpw fuel sg (S d) x s Hs Hn Hf) as Hc.
  generalize dependent (is64 limb32 p64). intros b Hc. clear Hw.
  unfold lefts in Hin; cbn [In] in Hin; each Hin; lazy beta iota zeta delta [nw Z.eqb Pos.eqb String.append] in Hc;
    one_call Hc.
Qed.
Theorem C112_right : forall limb32 p64 (c : Cfg) pw fuel d, 32 <= pw -> forall f w sg x s,
  In (f, w, sg) rights -> 0 <= s < 2 ^ 32 -> Z.of_nat (len x) * w < 2 ^ 32 -> (len x + 1 < fuel)%nat ->
  run pw fuel (3 + d) (prog_shift limb32 p64) f [] [VA (IU w) x; u32 s] =
  let* l := shr_array w sg x s in Ok (VA (IU w) l).
Proof.
  intros limb32 p64 c pw fuel d Hpw f w sg x s Hin Hs Hn Hf. rewrite prog_shift_eq. cbn [Nat.add].
  assert (Hw : width3 w) by (unfold rights in Hin; cbn [In] in Hin; each Hin; w3).
  pose proof (t_right (is64 limb32 p64) w Hw pw Hpw fuel sg (S d) x s Hs Hn Hf) as Hc.
  generalize dependent (is64 limb32 p64). intros b Hc. clear Hw.
  unfold rights in Hin; cbn [In] in Hin; each Hin; lazy beta iota zeta delta [nw Z.eqb Pos.eqb String.append] in Hc;
    one_call Hc.
Qed.
Theorem C112_rotate_left : forall limb32 p64 (c : Cfg) pw fuel d, 32 <= pw -> forall f w x s,
  In (f, w) rot_lefts -> 0 <= s < 2 ^ 32 -> Z.of_nat (len x) * w < 2 ^ 32 -> (len x + 1 < fuel)%nat ->
  run pw fuel (3 + d) (prog_rotate limb32 p64) f [] [VA (IU w) x; u32 s] =
  let* l := rotl_array w x s in Ok (VA (IU w) l).
Proof.
  intros limb32 p64 c pw fuel d Hpw f w x s Hin Hs Hn Hf. rewrite prog_rotate_eq. cbn [Nat.add].
  assert (Hw : width3 w) by (unfold rot_lefts in Hin; cbn [In] in Hin; each Hin; w3).
  pose proof (t_rotl (is64 limb32 p64) w Hw pw Hpw fuel (S (S d)) x s Hs Hn Hf) as Hc.
  unfold rot_lefts in Hin; cbn [In] in Hin; each Hin; exact Hc.
Qed.
Theorem C112_rotate_right : forall limb32 p64 (c : Cfg) pw fuel d, 32 <= pw -> forall f w x s,
  In (f, w) rot_rights -> 0 <= s < 2 ^ 32 -> Z.of_nat (len x) * w < 2 ^ 32 -> (len x + 1 < fuel)%nat ->
  run pw fuel (3 + d) (prog_rotate limb32 p64) f [] [VA (IU w) x; u32 s] =
  let* l := rotr_array w x s in Ok (VA (IU w) l).
Proof.
  intros limb32 p64 c pw fuel d Hpw f w x s Hin Hs Hn Hf. rewrite prog_rotate_eq. cbn [Nat.add].
  assert (Hw : width3 w) by (unfold rot_rights in Hin; cbn [In] in Hin; each Hin; w3).
  pose proof (t_rotr (is64 limb32 p64) w Hw pw Hpw fuel (S d) x s Hs Hn Hf) as Hc.
  unfold rot_rights in Hin; cbn [In] in Hin; each Hin; exact Hc.
Qed.

(** The names the rest of the crate calls, on elements of two limbs *)
Ltac wides b HW := 
  match type of HW with @W ?c = _ => destruct c as [?cw ?cn ?ck ?db] end; destruct b; cbn in HW; subst;
  cbn [W] in *; change (2 * 64) with 128 in *; change (2 * 32) with 64 in *.
(** the one call in the body of a [limb_function!] *)
Ltac limb_fn prog_eq :=
  rewrite prog_eq in *; cbn [Nat.add] in *;
  repeat match goal with H : context [limb_bits ?a ?b] |- _ => change (limb_bits a b) with (ww (is64 a b)) in H end;
  match goal with HW : W = ww (is64 ?a ?b) |- _ =>
    generalize dependent (is64 a b); intros bb HW; intros; wides bb HW end.

Theorem C112_left_wide : forall limb32 p64 (c : Cfg) pw fuel d, W = limb_bits limb32 p64 -> 32 <= pw -> forall (sg : bool) x s,
  0 <= s < 2 ^ 32 -> Z.of_nat (len x) * (2 * W) < 2 ^ 32 -> (len x + 1 < fuel)%nat ->
  run pw fuel (4 + d) (prog_shift limb32 p64) (if sg then "left_iwide" else "left_uwide") [] [VA (IU (2 * W)) x; u32 s] =
  let* l := shl_array (2 * W) x s in Ok (VA (IU (2 * W)) l).
Proof.
  intros limb32 p64 c pw fuel d HW Hpw sg x s Hs Hn Hf.
  pose proof (fun f H => C112_left limb32 p64 c pw fuel d Hpw f (2 * W) sg x s H Hs Hn Hf) as Hc.
  limb_fn prog_shift_eq; destruct sg.
  1: specialize (Hc "left_i128" ltac:(cbn; tauto)). 2: specialize (Hc "left_u128" ltac:(cbn; tauto)).
  3: specialize (Hc "left_i64" ltac:(cbn; tauto)). 4: specialize (Hc "left_u64" ltac:(cbn; tauto)).
  all: enter; one_stmt; tidy; rewrite Hc; match goal with |- _ = bind ?r _ => destruct r as [?l| |]; reflexivity end.
Qed.
Theorem C112_right_wide : forall limb32 p64 (c : Cfg) pw fuel d, W = limb_bits limb32 p64 -> 32 <= pw -> forall (sg : bool) x s,
  0 <= s < 2 ^ 32 -> Z.of_nat (len x) * (2 * W) < 2 ^ 32 -> (len x + 1 < fuel)%nat ->
  run pw fuel (4 + d) (prog_shift limb32 p64) (if sg then "right_iwide" else "right_uwide") [] [VA (IU (2 * W)) x; u32 s] =
  let* l := shr_array (2 * W) sg x s in Ok (VA (IU (2 * W)) l).
Proof.
  intros limb32 p64 c pw fuel d HW Hpw sg x s Hs Hn Hf.
  pose proof (fun f H => C112_right limb32 p64 c pw fuel d Hpw f (2 * W) sg x s H Hs Hn Hf) as Hc.
  limb_fn prog_shift_eq; destruct sg.
  1: specialize (Hc "right_i128" ltac:(cbn; tauto)). 2: specialize (Hc "right_u128" ltac:(cbn; tauto)).
  3: specialize (Hc "right_i64" ltac:(cbn; tauto)). 4: specialize (Hc "right_u64" ltac:(cbn; tauto)).
  all: enter; one_stmt; tidy; rewrite Hc; match goal with |- _ = bind ?r _ => destruct r as [?l| |]; reflexivity end.
Qed.
Theorem C112_rotate_wide : forall limb32 p64 (c : Cfg) pw fuel d, W = limb_bits limb32 p64 -> 32 <= pw -> forall x s,
  0 <= s < 2 ^ 32 -> Z.of_nat (len x) * (2 * W) < 2 ^ 32 -> (len x + 1 < fuel)%nat ->
  run pw fuel (4 + d) (prog_rotate limb32 p64) "left_wide" [] [VA (IU (2 * W)) x; u32 s] =
  (let* l := rotl_array (2 * W) x s in Ok (VA (IU (2 * W)) l)) /\
  run pw fuel (4 + d) (prog_rotate limb32 p64) "right_wide" [] [VA (IU (2 * W)) x; u32 s] =
  (let* l := rotr_array (2 * W) x s in Ok (VA (IU (2 * W)) l)).
Proof.
  intros limb32 p64 c pw fuel d HW Hpw x s Hs Hn Hf.
  pose proof (fun f H => C112_rotate_left limb32 p64 c pw fuel d Hpw f (2 * W) x s H Hs Hn Hf) as Hc.
  pose proof (fun f H => C112_rotate_right limb32 p64 c pw fuel d Hpw f (2 * W) x s H Hs Hn Hf) as Hc'.
  limb_fn prog_rotate_eq.
  1: specialize (Hc "left_u128" ltac:(cbn; tauto)). 1: specialize (Hc' "right_u128" ltac:(cbn; tauto)).
  2: specialize (Hc "left_u64" ltac:(cbn; tauto)). 2: specialize (Hc' "right_u64" ltac:(cbn; tauto)).
  all: split; enter; one_stmt; tidy; rewrite ?Hc, ?Hc';
    match goal with |- _ = bind ?r _ => destruct r as [?l| |]; reflexivity end.
Qed.

(** What the text computes, without the model: [denotes w n l v] says that the
    [n] digits [l] in base [2^w] denote [v] modulo [2^(w*n)] (C69). *)
Definition shifts_to (w : Z) (n : nat) (m : res val) (v : Z) : Prop :=
  exists r, m = Ok (VA (IU w) r) /\ denotes w n r v.

Theorem C112_text_shift : forall limb32 p64 (c : Cfg) pw fuel d, 32 <= pw -> forall f g w sg x s,
  In (f, w, sg) lefts -> In (g, w, sg) rights -> (2 <= len x)%nat -> digits w x ->
  0 <= s < w * Z.of_nat (len x) -> Z.of_nat (len x) * w < 2 ^ 32 -> (len x + 1 < fuel)%nat ->
  shifts_to w (len x) (run pw fuel (3 + d) (prog_shift limb32 p64) f [] [VA (IU w) x; u32 s]) (lval w x * 2 ^ s) /\
  shifts_to w (len x) (run pw fuel (3 + d) (prog_shift limb32 p64) g [] [VA (IU w) x; u32 s]) (aval w sg x / 2 ^ s).
Proof.
  intros limb32 p64 c pw fuel d Hpw f g w sg x s Hf Hg H2 Hx Hs Hn Hfu.
  assert (Hw : w = 32 \/ w = 64 \/ w = 128) by (unfold lefts in Hf; cbn [In] in Hf; each Hf; auto).
  destruct (C69_shift c w sg x s Hw H2 Hx Hs) as [(r & E & Hr) (r' & E' & Hr')].
  rewrite (C112_left limb32 p64 c pw fuel d Hpw f w sg x s Hf), (C112_right limb32 p64 c pw fuel d Hpw g w sg x s Hg) by (auto; lia).
  rewrite E, E'. split; [exists r|exists r']; auto.
Qed.
Theorem C112_text_rotate : forall limb32 p64 (c : Cfg) pw fuel d, 32 <= pw -> forall f g w x s,
  In (f, w) rot_lefts -> In (g, w) rot_rights -> (2 <= len x)%nat -> digits w x ->
  0 <= s < 2 ^ 32 -> Z.of_nat (len x) * w < 2 ^ 32 -> (len x + 1 < fuel)%nat ->
  let m := 2 ^ (w * Z.of_nat (len x)) in
  let k := s mod (w * Z.of_nat (len x)) in let k' := (- s) mod (w * Z.of_nat (len x)) in
  shifts_to w (len x) (run pw fuel (3 + d) (prog_rotate limb32 p64) f [] [VA (IU w) x; u32 s]) (lval w x * 2 ^ k + lval w x * 2 ^ k / m) /\
  shifts_to w (len x) (run pw fuel (3 + d) (prog_rotate limb32 p64) g [] [VA (IU w) x; u32 s]) (lval w x * 2 ^ k' + lval w x * 2 ^ k' / m).
Proof.
  intros limb32 p64 c pw fuel d Hpw f g w x s Hf Hg H2 Hx Hs Hn Hfu m k k'.
  assert (Hw : w = 32 \/ w = 64 \/ w = 128) by (unfold rot_lefts in Hf; cbn [In] in Hf; each Hf; auto).
  destruct (C69_rotate c w x s Hw H2 Hx ltac:(lia) ltac:(lia)) as [(r & E & Hr) (r' & E' & Hr')].
  rewrite (C112_rotate_left limb32 p64 c pw fuel d Hpw f w x s Hf), (C112_rotate_right limb32 p64 c pw fuel d Hpw g w x s Hg) by (auto; lia).
  rewrite E, E'. split; [exists r|exists r']; auto.
Qed.
(** An amount too large is refused by a debug build and an array of one
    element always; both by the text itself. *)
Theorem C112_text_refused : forall limb32 p64 (c : Cfg) pw fuel d, 32 <= pw -> forall f w sg x s,
  In (f, w, sg) (lefts ++ rights) -> 0 <= s < 2 ^ 32 -> Z.of_nat (len x) * w < 2 ^ 32 -> (len x + 1 < fuel)%nat ->
  ((len x < 2)%nat \/ dbg = true /\ Z.of_nat (len x) * w <= s) ->
  run pw fuel (3 + d) (prog_shift limb32 p64) f [] [VA (IU w) x; u32 s] = Panic.
Proof.
  intros limb32 p64 c pw fuel d Hpw f w sg x s Hin Hs Hn Hfu Hbad. apply in_app_or in Hin.
  assert (E : (2 <=? len x)%nat = false \/ (2 <=? len x)%nat = true /\ dbg = true /\ (s <? Z.of_nat (len x) * w) = false).
  { destruct (Nat.leb_spec 2 (len x)); [right|left; reflexivity]. split; [reflexivity|].
    destruct Hbad as [|[Hd Hl]]; [lia|]. split; [exact Hd|]. apply Z.ltb_ge. lia. }
  destruct Hin as [Hin|Hin]; [rewrite (C112_left _ _ c) with (sg := sg)|rewrite (C112_right _ _ c) with (sg := sg)]; auto.
  - unfold shl_array, dassert. destruct E as [->|(-> & -> & ->)]; reflexivity.
  - unfold shr_array, dassert. destruct E as [->|(-> & -> & ->)]; reflexivity.
Qed.

(** The two files are read to the end under every setting. *)
Theorem C112_read : forall limb32 p64, (len (prog_shift limb32 p64), len (prog_rotate limb32 p64)) = (22, 8)%nat.
Proof. intros [|] [|]; vm_compute; reflexivity. Qed.

(** Runs of the text *)
Definition scfg : Cfg := {| W := 64; N := 4; chk := true; dbg := true |}.
Example C112_ex_hyps : In ("right_i64", 64, true) rights /\ In ("left_i64", 64, true) lefts /\ (2 <= len [7; 0; 2 ^ 63])%nat /\
  digits 64 [7; 0; 2 ^ 63] /\ 0 <= 65 < 64 * Z.of_nat (len [7; 0; 2 ^ 63]) /\ Z.of_nat (len [7; 0; 2 ^ 63]) * 64 < 2 ^ 32.
Proof. repeat split; try (cbn; tauto); try (cbn; lia). repeat constructor; discriminate. Qed.
Example C112_ex_shift : run (c := scfg) 64 10 3 (prog_shift false true) "right_i64" [] [VA (IU 64) [7; 0; 2 ^ 63]; u32 65] =
    Ok (VA (IU 64) [0; 2 ^ 62 + 2 ^ 63; 2 ^ 64 - 1]) /\
  run (c := scfg) 64 10 4 (prog_shift false true) "left_uwide" [] [VA (IU 128) [3; 2 ^ 127]; u32 127] = Ok (VA (IU 128) [2 ^ 127; 1]).
Proof. vm_compute. split; reflexivity. Qed.
Example C112_ex_rotate : run (c := scfg) 64 10 3 (prog_rotate true true) "right_u64" [] [VA (IU 64) [1; 2; 3]; u32 65] =
    Ok (VA (IU 64) [2 ^ 63 + 1; 2 ^ 63 + 1; 0]).
Proof. vm_compute. reflexivity. Qed.
Example C112_ex_panic : run (c := scfg) 64 10 3 (prog_shift true true) "left_u32" [] [VA (IU 32) [1; 2; 3]; u32 96] = Panic.
Proof. vm_compute. reflexivity. Qed.

(** ** Assumptions (each must print "Closed under the global context") *)

Print Assumptions C112_left.
Print Assumptions C112_right.
Print Assumptions C112_rotate_left.
Print Assumptions C112_rotate_right.
Print Assumptions C112_left_wide.
Print Assumptions C112_right_wide.
Print Assumptions C112_rotate_wide.
Print Assumptions C112_text_shift.
Print Assumptions C112_text_rotate.
Print Assumptions C112_text_refused.
Print Assumptions C112_read.
