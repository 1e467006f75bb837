(** * The text of src/math/rotate.rs *)

Require Import ZArith List Bool String Lia.
From Verif Require Import Prim Spec MText SrcText MRun MShift PText PTextShift.
Import ListNotations.
Local Open Scope string_scope.
Local Open Scope list_scope.
Local Open Scope Z_scope.

(** the program, already read *)
Definition ROT64 : list fn := Eval vm_compute in prog_rotate false true.
Definition ROT32 : list fn := Eval vm_compute in prog_rotate true true.
Definition ROT (s : bool) : list fn := if s then ROT64 else ROT32.
Lemma prog_rotate_eq : forall limb32 p64, prog_rotate limb32 p64 = ROT (is64 limb32 p64).
Proof. intros [|] [|]; vm_compute; reflexivity. Qed.

Ltac sr Er := tidy; repeat (step2; rewrite ?Er; cbv beta iota; tidy).
Section B.
Context {c : Cfg} (s : bool) (w : Z) (Hw : width3 w) (pw : Z) (Hpw : 32 <= pw) (fuel : nat).
Notation call d f := (run pw fuel d (ROT s) f []).
Notation arr l := (VA (IU w) l).
Notation nat_ n := (VI IX (Z.of_nat n)).
Notation u32 n := (VI (IU 32) n).
Notation len := List.length.

Lemma limb_text3 : forall sh, 0 <= sh < 2 ^ 32 -> exists z,
  ushr 32 sh (Z.log2 w) = Ok z /\ ucast pw z = Z.of_nat (limb_amount w sh).
Proof.
  intros sh Hs. pose proof (limb_text2 w Hw pw Hpw sh Hs) as H.
  destruct (ushr 32 sh (Z.log2 w)) as [z| |]; try discriminate. exists z. split; [reflexivity|]. now injection H.
Qed.
Lemma urem_nn : forall a b, b <> 0%nat -> urem (Z.of_nat a) (Z.of_nat b) = Ok (Z.of_nat (a mod b)).
Proof.
  intros a b Hb. unfold urem. destruct (Z.eqb_spec (Z.of_nat b) 0); [lia|]. now rewrite Nat2Z.inj_mod.
Qed.

Definition rvars (x : list Z) (n n' : Z) (ln : nat) (bn inv : Z) (r : list Z) : env :=
  [("result", VA IL r); ("inv_n", u32 inv); ("bits_n", u32 bn); ("limb_n", nat_ ln);
   ("n", u32 n'); ("BITS", u32 w); ("n", u32 n); ("x", arr x); ("N", nat_ (len x))].

Lemma t_rotl : forall d x n, 0 <= n < 2 ^ 32 -> Z.of_nat (len x) * w < 2 ^ 32 -> (len x + 1 < fuel)%nat ->
  call (S d) (nw w "left_u") [arr x; u32 n] = v_arr w (rotl_array w x n).
Proof.
  intros d x n Hn0 Hn Hf.
  destruct (2 <=? len x)%nat eqn:E8.
  2:{ unfold rotl_array. rewrite E8. destruct Hw as [->|[->| ->]]; destruct c as [cw cn ck db];
      enter_s; tidy; one_stmt; tidy; reflexivity. }
  apply Nat.leb_le in E8 as E9.
  destruct (total_text w Hw (len x) Hn) as [E4 _].
  assert (E4' : umul 32 (Z.of_nat (len x)) w = Ok (Z.of_nat (len x) * w)).
  { rewrite <- E4. f_equal. unfold ucast. rewrite Z.mod_small; [reflexivity|].
    destruct Hw as [->|[->| ->]]; lia. }
  assert (H31 : Z.of_nat (len x) < 2 ^ 31) by (destruct Hw as [->|[->| ->]]; lia).
  assert (Ht : 0 < Z.of_nat (len x) * w) by (destruct Hw as [->|[->| ->]]; lia).
  assert (E10 : urem n (Z.of_nat (len x) * w) = Ok (n mod (Z.of_nat (len x) * w))).
  { unfold urem. destruct (Z.eqb_spec (Z.of_nat (len x) * w) 0); [lia|reflexivity]. }
  unfold rotl_array. rewrite E8, E4'. cbn [assert_ bind]. rewrite E10. cbn [bind].
  set (sh := n mod (Z.of_nat (len x) * w)) in *.
  assert (Hs' : 0 <= sh < Z.of_nat (len x) * w) by (apply Z.mod_pos_bound; exact Ht).
  assert (Hs : 0 <= sh < 2 ^ 32) by lia.
  clearbody sh.
  destruct (limb_text3 sh Hs) as (zl & E1 & E1'). pose proof (bits1_text w Hw) as E2.
  pose proof (inv_text w Hw sh (proj1 Hs)) as E3.
  pose proof (limb_range w Hw sh Hs) as E5. pose proof (bits_range w Hw sh (proj1 Hs)) as E6.
  assert (E7 : Z.land sh (w - 1) = bits_amount w sh) by reflexivity.
  rewrite E3. cbn [bind].
  set (ln := limb_amount w sh) in *. set (bn := bits_amount w sh) in *. set (inv := w - bn) in *.
  set (tot := Z.of_nat (len x) * w) in *.
  clearbody ln bn inv tot.
  set (R1 := fun (i : nat) (st : list Z * Z) (en : env) =>
    en = ("carry", VI IL (snd st)) :: ("index", VI IL (Z.of_nat i)) :: rvars x n sh ln bn inv (fst st)).
  set (R0 := fun (i : nat) (r : list Z) (en : env) =>
    en = ("index", VI IL (Z.of_nat i)) :: rvars x n sh ln bn inv r).
  unfold rvars in R1, R0.
  pose proof (fun a => urem_nn a (len x) ltac:(lia)) as Er.
  destruct c as [cw cn ck db].
  destruct Hw as [->|[->| ->]].
  all: change (Z.log2 32) with 5 in *; change (Z.log2 64) with 6 in *; change (Z.log2 128) with 7 in *.
  all: enter_s; unfold v_arr; tidy.
  all: do 2 (one_stmt; tidy).
  all: one_stmt; tidy; rewrite E10; cbv beta iota; binds.
  all: one_stmt; tidy; rewrite ?E1'.
  all: sy; try reflexivity.
  all: lazymatch goal with |- context [("carry", VI IL 0)] =>
      the_loop R1 O;
      [ intros k i [r cy] en Hi Hk HR; unfold R1 in HR; cbn [fst snd] in HR; subst en; split;
        [ sy; truth | sr Er; apply agree_ok; reflexivity ]
      | intros k [r cy] en HR; unfold R1 in HR; cbn [fst snd] in HR; subst en; sy; truth
      | reflexivity
      | lia
      | done_loop ltac:(fun st HR => destruct st as [r cy]; rewrite HR; cbn [fst snd]; sy; reflexivity) ]
    | _ => the_loop R0 O;
      [ intros k i r en Hi Hk HR; unfold R0 in HR; subst en; split;
        [ sy; truth | sr Er; apply agree_ok; reflexivity ]
      | intros k r en HR; unfold R0 in HR; subst en; sy; truth
      | reflexivity
      | lia
      | done_loop ltac:(fun st HR => rewrite HR; sy; reflexivity) ] end.
Qed.

Lemma t_rotr : forall d x n, 0 <= n < 2 ^ 32 -> Z.of_nat (len x) * w < 2 ^ 32 -> (len x + 1 < fuel)%nat ->
  call (S (S d)) (nw w "right_u") [arr x; u32 n] = v_arr w (rotr_array w x n).
Proof.
  intros d x n Hn0 Hn Hf.
  destruct (2 <=? len x)%nat eqn:E8.
  2:{ unfold rotr_array. rewrite E8. destruct Hw as [->|[->| ->]]; destruct c as [cw cn ck db];
      enter_s; tidy; one_stmt; tidy; reflexivity. }
  apply Nat.leb_le in E8 as E9.
  destruct (total_text w Hw (len x) Hn) as [_ E4].
  assert (E4' : umul 32 w (Z.of_nat (len x)) = Ok (w * Z.of_nat (len x))).
  { rewrite <- E4. f_equal. unfold ucast. rewrite Z.mod_small; [reflexivity|].
    destruct Hw as [->|[->| ->]]; lia. }
  assert (Ht : 0 < w * Z.of_nat (len x) < 2 ^ 32) by (destruct Hw as [->|[->| ->]]; lia).
  assert (E10 : urem n (w * Z.of_nat (len x)) = Ok (n mod (w * Z.of_nat (len x)))).
  { unfold urem. destruct (Z.eqb_spec (w * Z.of_nat (len x)) 0); [lia|reflexivity]. }
  unfold rotr_array. rewrite E8, E4'. cbn [assert_ bind]. rewrite E10. cbn [bind].
  set (sh := n mod (w * Z.of_nat (len x))) in *.
  assert (Hs' : 0 <= sh < w * Z.of_nat (len x)) by (apply Z.mod_pos_bound; lia).
  assert (E11 : usub 32 (w * Z.of_nat (len x)) sh = Ok (w * Z.of_nat (len x) - sh)) by (apply uchk_nat; lia).
  rewrite E11. cbn [bind]. clearbody sh.
  pose proof (t_rotl d x (w * Z.of_nat (len x) - sh) ltac:(lia) Hn Hf) as Hl.
  set (k := w * Z.of_nat (len x) - sh) in *. clearbody k.
  set (tot := w * Z.of_nat (len x)) in *. clearbody tot.
  destruct c as [cw cn ck db].
  destruct Hw as [->|[->| ->]].
  all: lazy beta iota zeta delta [nw Z.eqb Pos.eqb String.append] in Hl.
  all: enter_s; tidy.
  all: do 2 (one_stmt; tidy).
  all: one_stmt; tidy; rewrite E10; cbv beta iota; binds.
  all: one_stmt; tidy.
  all: rewrite Hl; unfold v_arr.
  all: match goal with |- _ = bind ?m _ => destruct m as [l| |]; reflexivity end.
Qed.
End B.
