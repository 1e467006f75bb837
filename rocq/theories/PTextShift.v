(** * The text of src/math/shift.rs *)

Require Import ZArith List Bool String Lia.
From Verif Require Import Prim Spec MText SrcText MRun MShift PText.
Import ListNotations.
Local Open Scope string_scope.
Local Open Scope list_scope.
Local Open Scope Z_scope.

(** the program, already read *)
Definition SHIFT64 : list fn := Eval vm_compute in prog_shift false true.
Definition SHIFT32 : list fn := Eval vm_compute in prog_shift true true.
Definition SHIFT (s : bool) : list fn := if s then SHIFT64 else SHIFT32.
Lemma prog_shift_eq : forall limb32 p64, prog_shift limb32 p64 = SHIFT (is64 limb32 p64).
Proof. intros [|] [|]; vm_compute; reflexivity. Qed.

(** the widths the macro is used at *)
Definition nw (w : Z) (n : string) : string :=
  String.append n (if w =? 32 then "32" else if w =? 64 then "64" else "128").
Definition width3 (w : Z) : Prop := w = 32 \/ w = 64 \/ w = 128.

Lemma zeq_nn : forall a b, zeq (Z.of_nat a) (Z.of_nat b) = (a =? b)%nat.
Proof. intros. unfold zeq. destruct (Nat.eqb_spec a b); [apply Z.eqb_eq|apply Z.eqb_neq]; lia. Qed.
Lemma zeq_n2 : forall a, zeq (Z.of_nat a) 2 = (a =? 2)%nat.
Proof. intros. apply (zeq_nn a 2). Qed.
Lemma zeq_n0 : forall a, zeq (Z.of_nat a) 0 = (a =? 0)%nat.
Proof. intros. apply (zeq_nn a 0). Qed.

Section Amounts.
Context {c : Cfg} (w : Z) (Hw : width3 w) (pw : Z) (Hpw : 32 <= pw).
Lemma limb_text : forall sh, 0 <= sh < 2 ^ 32 ->
  ushr pw (ucast pw sh) (Z.log2 w) = Ok (Z.of_nat (limb_amount w sh)).
Proof.
  intros sh Hs. unfold ushr, ucast, limb_amount, in_u. pose proof (pw_big pw Hpw).
  rewrite Z.mod_small by lia.
  assert (L : 0 <= Z.log2 w < 8) by (destruct Hw as [->|[->| ->]]; cbn; lia).
  replace ((0 <=? Z.log2 w) && (Z.log2 w <? 2 ^ 32) && (Z.log2 w <? pw)) with true.
  2:{ symmetry. rewrite !andb_true_iff, Z.leb_le, !Z.ltb_lt. lia. }
  rewrite Z.shiftr_div_pow2 by lia. rewrite Z2Nat.id; [reflexivity|].
  apply Z.div_pos; [lia|]. apply Z.pow_pos_nonneg; lia.
Qed.
(** the other way round: shift, then cast *)
Lemma limb_text2 : forall sh, 0 <= sh < 2 ^ 32 ->
  (let* z := ushr 32 sh (Z.log2 w) in Ok (ucast pw z)) = Ok (Z.of_nat (limb_amount w sh)).
Proof.
  intros sh Hs. unfold ushr, ucast, limb_amount, in_u. pose proof (pw_big pw Hpw).
  assert (L : 0 <= Z.log2 w < 8) by (destruct Hw as [->|[->| ->]]; cbn; lia).
  replace ((0 <=? Z.log2 w) && (Z.log2 w <? 2 ^ 32) && (Z.log2 w <? 32)) with true.
  2:{ symmetry. rewrite !andb_true_iff, Z.leb_le, !Z.ltb_lt. lia. }
  cbn [bind]. assert (0 < 2 ^ Z.log2 w) by (apply Z.pow_pos_nonneg; lia).
  assert (0 <= sh / 2 ^ Z.log2 w <= sh) by (split; [apply Z.div_pos; lia|apply Z.div_le_upper_bound; nia]).
  rewrite Z.mod_small by lia.
  rewrite Z.shiftr_div_pow2 by lia. rewrite Z2Nat.id by lia. reflexivity.
Qed.
Lemma bits1_text : usub 32 w 1 = Ok (w - 1).
Proof.
  unfold usub. destruct Hw as [->|[->| ->]]; reflexivity.
Qed.
Lemma bits_range : forall sh, 0 <= sh -> 0 <= bits_amount w sh < w.
Proof.
  intros sh Hs. unfold bits_amount.
  assert (E : w - 1 = Z.ones (Z.log2 w)) by (destruct Hw as [->|[->| ->]]; reflexivity).
  rewrite E, Z.land_ones by (apply Z.log2_nonneg).
  assert (E2 : 2 ^ Z.log2 w = w) by (destruct Hw as [->|[->| ->]]; reflexivity).
  rewrite E2. apply Z.mod_pos_bound. destruct Hw as [->|[->| ->]]; lia.
Qed.
Lemma inv_text : forall sh, 0 <= sh -> usub 32 w (bits_amount w sh) = Ok (w - bits_amount w sh).
Proof.
  intros sh Hs. pose proof (bits_range sh Hs). unfold usub, uchk, in_u.
  assert (w <= 128) by (destruct Hw as [->|[->| ->]]; lia).
  replace ((0 <=? w - bits_amount w sh) && (w - bits_amount w sh <? 2 ^ 32)) with true; [reflexivity|].
  symmetry. rewrite andb_true_iff, Z.leb_le, Z.ltb_lt. lia.
Qed.
Lemma total_text : forall n : nat, Z.of_nat n * w < 2 ^ 32 ->
  umul 32 (ucast 32 (Z.of_nat n)) w = Ok (Z.of_nat n * w) /\
  umul 32 w (ucast 32 (Z.of_nat n)) = Ok (w * Z.of_nat n).
Proof.
  intros n Hn. assert (32 <= w) by (destruct Hw as [->|[->| ->]]; lia).
  unfold umul, ucast. rewrite Z.mod_small by nia.
  split; apply uchk_nat; nia.
Qed.
Lemma limb_range : forall sh, 0 <= sh < 2 ^ 32 -> Z.of_nat (limb_amount w sh) < 2 ^ 31.
Proof.
  intros sh Hs. unfold limb_amount.
  assert (L : 5 <= Z.log2 w < 8) by (destruct Hw as [->|[->| ->]]; cbn; lia).
  rewrite Z.shiftr_div_pow2 by lia.
  assert (2 ^ 5 <= 2 ^ Z.log2 w) by (apply Z.pow_le_mono_r; lia). change (2 ^ 5) with 32 in *.
  rewrite Z2Nat.id by (apply Z.div_pos; lia).
  assert (sh / 2 ^ Z.log2 w <= sh / 32) by (apply Z.div_le_compat_l; lia).
  assert (sh / 32 < 2 ^ 31) by (apply Z.div_lt_upper_bound; lia). lia.
Qed.
End Amounts.

Section A.
Context {c : Cfg} (s : bool) (w : Z) (Hw : width3 w) (pw : Z) (Hpw : 32 <= pw) (fuel : nat).
Notation call d f := (run pw fuel d (SHIFT s) f).
Notation arr l := (VA (IU w) l).
Notation nat_ n := (VI IX (Z.of_nat n)).
Notation u32 n := (VI (IU 32) n).
Notation len := List.length.

(** the variables when the shift begins *)
Definition svars (sg : bool) (x : list Z) (sh : Z) (ln : nat) (bn inv : Z) (t : ity) (r : list Z) : env :=
  [("result", VA t r); ("inv_n", u32 inv); ("bits_n", u32 bn); ("limb_n", nat_ ln);
   ("BITS", u32 w); ("shift", u32 sh); ("x", arr x); ("N", nat_ (len x)); ("SIGNED", VB sg)].
End A.

Ltac more :=
  repeat match goal with
  | |- context [zeq (Z.of_nat ?a) (Z.of_nat ?b)] => rewrite (zeq_nn a b)
  | |- context [zeq (Z.of_nat ?a) 2] => rewrite (zeq_n2 a)
  | |- context [zeq (Z.of_nat ?a) 0] => rewrite (zeq_n0 a)
  end.
(** amounts known by hypothesis *)
Ltac am :=
  repeat match goal with
  | H : ushr _ _ _ = Ok _ |- context [ushr _ _ _] => rewrite H
  | H : umul _ _ _ = Ok _ |- context [umul _ _ _] => rewrite H
  | H : usub _ _ _ = Ok _ |- context [usub _ _ _] => rewrite H
  | H : Z.land _ _ = _ |- context [Z.land _ _] => rewrite H
  end.
Ltac asserts :=
  repeat match goal with
  | |- context [assert_ true] => change (assert_ true) with (@Ok unit tt); cbv beta iota
  | |- context [assert_ false] => change (assert_ false) with (@Panic unit); cbv beta iota
  | H : ?b = true |- context [assert_ ?b] => rewrite H
  | H : ?b = false |- context [assert_ ?b] => rewrite H
  end.
Ltac tidy := repeat (progress (more; am; asserts; nats; binds)).
Ltac branch2 :=
  lazymatch goal with |- context [@wh _ _ _ _ _ _ _] => fail | _ => idtac end;
  match goal with
  | |- context [(?a =? ?b)%nat] => destruct (Nat.eqb_spec a b); try (exfalso; lia); cbv beta iota delta [andb negb]
  end.
(** decide a condition before looking at what it guards *)
Ltac dec b :=
  lazymatch b with
  | if ?b' then _ else _ => dec b'
  | (?x =? ?y)%nat => destruct (Nat.eqb_spec x y); try (exfalso; lia)
  | zeq ?x ?y => change (zeq x y) with (x =? y); destruct (x =? y) eqn:?
  | _ => destruct b eqn:?
  end; cbv beta iota delta [andb negb].
Ltac decide_ :=
  match goal with
  | |- context [if ?b then @exec_blk _ _ _ _ _ _ else _] => dec b
  end.
Ltac step2 := first [ decide_; tidy | progress one_stmt; tidy | common; tidy ].
Ltac sy := tidy; repeat step2.

(** enter a function that does not depend on the settings *)
Ltac enter_s :=
  lazymatch goal with
  | |- @run ?cc ?p ?k (S ?d) (?pr ?s) ?f ?gs ?args = _ =>
    let fd := eval vm_compute in (find_fn (pr true) f) in
    lazymatch fd with
    | Some ?fd =>
      eapply eq_trans;
      [ eapply (@run_S cc p k d (pr s) f gs args fd);
        [ destruct s; vm_compute; reflexivity
        | reflexivity
        | red_ev; repeat match goal with H : List.length _ = List.length _ |- _ => rewrite H end;
          rewrite ?zeq_refl; reflexivity ]
      | cbn [f_body f_ret] ]
    end
  end.
Lemma exec_dassert : forall {c : Cfg} pw w call e en b, ev pw w call e en = Ok (VB b) ->
  exec pw w call (SAssert true e) en = let* _ := dassert b in Ok (ONext en unit_).
Proof.
  intros c pw w call e en b H. transitivity (if dbg then
        let* b := ev pw w call e en in
        match b with VB b => let* _ := assert_ b in Ok (ONext en unit_) | _ => stuck end
      else Ok (ONext en unit_)); [reflexivity|]. rewrite H. unfold dassert. destruct dbg; reflexivity.
Qed.
Ltac run_dassert b :=
  lazymatch goal with
  | |- context [@exec_blk ?cc ?p ?w ?cl (BCons (SAssert true ?e) (BCons ?s' ?r)) ?en] =>
    rewrite (@exec_blk_cons cc p w cl (SAssert true e) s' r en);
    rewrite (@exec_dassert cc p w cl e en b); [destruct (@dassert cc b) as [[]| |]; binds; try reflexivity|]
  end.

Section B.
Context {c : Cfg} (s : bool) (w : Z) (Hw : width3 w) (pw : Z) (Hpw : 32 <= pw) (fuel : nat).
Notation call d f := (run pw fuel d (SHIFT s) f).
Notation arr l := (VA (IU w) l).
Notation nat_ n := (VI IX (Z.of_nat n)).
Notation u32 n := (VI (IU 32) n).
Notation len := List.length.

Lemma t_left : forall sg d x sh, 0 <= sh < 2 ^ 32 -> Z.of_nat (len x) * w < 2 ^ 32 -> (len x + 1 < fuel)%nat ->
  call (S d) (nw w "left_") [nat_ (len x); VB sg] [arr x; u32 sh] = v_arr w (shl_array w x sh).
Proof.
  intros sg d x sh Hs Hn Hf.
  pose proof (limb_text w Hw pw Hpw sh Hs) as E1. pose proof (bits1_text w Hw) as E2.
  pose proof (inv_text w Hw sh (proj1 Hs)) as E3. destruct (total_text w Hw (len x) Hn) as [E4 _].
  pose proof (limb_range w Hw sh Hs) as E5. pose proof (bits_range w Hw sh (proj1 Hs)) as E6.
  assert (E7 : Z.land sh (w - 1) = bits_amount w sh) by reflexivity.
  assert (H31 : Z.of_nat (len x) < 2 ^ 31) by (destruct Hw as [->|[->| ->]]; lia).
  unfold shl_array. rewrite E3.
  set (ln := limb_amount w sh) in *. set (bn := bits_amount w sh) in *. set (inv := w - bn) in *.
  set (tot := Z.of_nat (len x) * w) in *.
  clearbody ln bn inv tot.
  set (R1 := fun (i : nat) (st : list Z * Z) (en : env) =>
    en = ("carry", VI IL (snd st)) :: ("index", nat_ i) :: svars w sg x sh ln bn inv IL (fst st)).
  set (R0 := fun (i : nat) (r : list Z) (en : env) =>
    en = ("index", nat_ i) :: svars w sg x sh ln bn inv IL r).
  unfold svars in R1, R0.
  destruct c as [cw cn ck db]. destruct (2 <=? len x)%nat eqn:E8.
  all: destruct Hw as [->|[->| ->]].
  all: change (Z.log2 32) with 5 in *; change (Z.log2 64) with 6 in *; change (Z.log2 128) with 7 in *.
  all: enter_s; unfold v_arr; tidy; try (one_stmt; tidy; reflexivity).
  all: do 2 (one_stmt; tidy); run_dassert (sh <? tot); [|red_ev; am; reflexivity]; sy.
  all: try reflexivity.
  all: lazymatch goal with |- context [("carry", VI IL 0)] =>
      the_loop R1 O;
      [ intros k i [r cy] en Hi Hk HR; unfold R1 in HR; cbn [fst snd] in HR; subst en; split;
        [ sy; truth | sy; apply agree_ok; reflexivity ]
      | intros k [r cy] en HR; unfold R1 in HR; cbn [fst snd] in HR; subst en; sy; truth
      | reflexivity
      | lia
      | done_loop ltac:(fun st HR => destruct st as [r cy]; rewrite HR; cbn [fst snd]; sy; reflexivity) ]
    | _ => the_loop R0 O;
      [ intros k i r en Hi Hk HR; unfold R0 in HR; subst en; split;
        [ sy; truth | sy; apply agree_ok; reflexivity ]
      | intros k r en HR; unfold R0 in HR; subst en; sy; truth
      | reflexivity
      | lia
      | done_loop ltac:(fun st HR => rewrite HR; sy; reflexivity) ] end.
Qed.
End B.
