(** * The text of src/math/shift.rs: shifts to the right *)

Require Import ZArith List Bool String Lia.
From Verif Require Import Prim Spec MText SrcText MRun MShift PText PTextShift.
Import ListNotations.
Local Open Scope string_scope.
Local Open Scope list_scope.
Local Open Scope Z_scope.

Section B.
Context {c : Cfg} (s : bool) (w : Z) (Hw : width3 w) (pw : Z) (Hpw : 32 <= pw) (fuel : nat).
Notation call d f := (run pw fuel d (SHIFT s) f).
Notation arr l := (VA (IU w) l).
Notation nat_ n := (VI IX (Z.of_nat n)).
Notation u32 n := (VI (IU 32) n).
Notation len := List.length.

Lemma get_in : forall (x : list Z) i, (i < len x)%nat -> exists v, get x i = Ok v.
Proof.
  intros x i H. unfold get. destruct (nth_error x i) eqn:E; [eauto|]. apply nth_error_None in E. lia.
Qed.
Lemma sub_swap : forall a b, (a - b - 1 = a - 1 - b)%nat.
Proof. lia. Qed.
Ltac sz := tidy; repeat (step2; rewrite ?sub_swap).
Lemma t_right : forall sg d x sh, 0 <= sh < 2 ^ 32 -> Z.of_nat (len x) * w < 2 ^ 32 -> (len x + 1 < fuel)%nat ->
  call (S d) (nw w "right_") [nat_ (len x); VB sg] [arr x; u32 sh] = v_arr w (shr_array w sg x sh).
Proof.
  intros sg d x sh Hs Hn Hf.
  pose proof (limb_text w Hw pw Hpw sh Hs) as E1. pose proof (bits1_text w Hw) as E2.
  pose proof (inv_text w Hw sh (proj1 Hs)) as E3. destruct (total_text w Hw (len x) Hn) as [E4 _].
  pose proof (limb_range w Hw sh Hs) as E5. pose proof (bits_range w Hw sh (proj1 Hs)) as E6.
  assert (E7 : Z.land sh (w - 1) = bits_amount w sh) by reflexivity.
  assert (H31 : Z.of_nat (len x) < 2 ^ 31) by (destruct Hw as [->|[->| ->]]; lia).
  unfold shr_array. cbv zeta. rewrite E3.
  set (ln := limb_amount w sh) in *. set (bn := bits_amount w sh) in *. set (inv := w - bn) in *.
  set (tot := Z.of_nat (len x) * w) in *.
  clearbody ln bn inv tot.
  set (R1 := fun (t : ity) (i : nat) (st : list Z * Z) (en : env) =>
    en = ("carry", VI IL (snd st)) :: ("index", nat_ (len x - i)) :: svars w sg x sh ln bn inv t (fst st)).
  set (R0 := fun (t : ity) (i : nat) (r : list Z) (en : env) =>
    en = ("index", nat_ (len x - i)) :: svars w sg x sh ln bn inv t r).
  unfold svars in R1, R0.
  destruct c as [cw cn ck db]. destruct (2 <=? len x)%nat eqn:E8.
  all: destruct Hw as [->|[->| ->]].
  all: change (Z.log2 32) with 5 in *; change (Z.log2 64) with 6 in *; change (Z.log2 128) with 7 in *.
  all: enter_s; unfold v_arr; tidy; try (one_stmt; tidy; reflexivity).
  all: apply Nat.leb_le in E8 as E9; destruct (get_in x (len x - 1) ltac:(lia)) as [top Etop].
  all: do 2 (one_stmt; tidy); run_dassert (sh <? tot); [|red_ev; am; reflexivity].
  all: do 3 (one_stmt; tidy); rewrite Etop; binds.
  all: destruct sg; one_stmt; tidy; rewrite ?Etop; binds; cbv beta iota delta [andb].
  all: sy.
  all: try reflexivity.
  all: lazymatch goal with
    | |- context [("carry", VI IL 0) :: ("index", _) :: ("result", VA ?t _) :: _] =>
      the_loop (R1 t) O;
      [ intros k i [r cy] en Hi Hk HR; unfold R1 in HR; cbn [fst snd] in HR; subst en; split;
        [ sy; truth
        | cbv beta iota; unfold R1; cbn [fst snd]; replace (len x - S i)%nat with (len x - 1 - i)%nat by lia;
          sz; apply agree_ok; reflexivity ]
      | intros k [r cy] en HR; unfold R1 in HR; cbn [fst snd] in HR; subst en; sy; truth
      | unfold R1; rewrite Nat.sub_0_r; reflexivity
      | lia
      | done_loop ltac:(fun st HR => destruct st as [r cy]; rewrite HR; cbn [fst snd]; sy; reflexivity) ]
    | |- context [("index", _) :: ("result", VA ?t _) :: _] => the_loop (R0 t) O;
      [ intros k i r en Hi Hk HR; unfold R0 in HR; subst en; split;
        [ sy; truth
        | cbv beta iota; unfold R0; replace (len x - S i)%nat with (len x - 1 - i)%nat by lia;
          sz; apply agree_ok; reflexivity ]
      | intros k r en HR; unfold R0 in HR; subst en; sy; truth
      | unfold R0; rewrite Nat.sub_0_r; reflexivity
      | lia
      | done_loop ltac:(fun st HR => rewrite HR; sy; reflexivity) ] end.
Qed.
End B.
