(** * Properties: what the text of the source computes (C111)

    PropsSrcAdd.v, PropsSrcSub.v and PropsSrcMul.v show that the text of
    src/math/add.rs, sub.rs and mul.rs, read and run, does what the model does.
    With C69, which says what the model does, this gives statements that do not
    mention the model: the text itself adds, subtracts and multiplies. *)

Require Import ZArith List Bool String Lia.
From Verif Require Import Prim Spec MText SrcText MRun MAdd MMul PropsMath PropsSrcAdd PropsSrcSub PropsSrcMul.
Import ListNotations.
Local Open Scope string_scope.
Local Open Scope list_scope.
Local Open Scope Z_scope.

Notation len := List.length.
Notation arr l := (VA (IU W) l).

(** "the call returns an array of [n] limbs denoting [v]", and the same with a flag *)
Definition returns {c : Cfg} (m : res val) (n : nat) (v : Z) : Prop :=
  exists r, m = Ok (arr r) /\ denotes W n r v.
Definition returns_flag {c : Cfg} (m : res val) (n : nat) (v : Z) (p : Prop) : Prop :=
  exists r f, m = Ok (VT [arr r; VB f]) /\ denotes W n r v /\ (f = true <-> p).

Lemma limb_bits_ok : forall limb32 p64 (c : Cfg), W = limb_bits limb32 p64 -> limb_widths W.
Proof. intros [|] [|] c H; rewrite H; [left|left|right|left]; reflexivity. Qed.

Theorem C111_text_add : forall limb32 p64 (c : Cfg) pw fuel d, W = limb_bits limb32 p64 -> 32 <= pw -> forall (sg : bool) x y,
  (2 <= len x)%nat -> len y = len x -> digits W x -> digits W y -> Z.of_nat (len x) < 2 ^ 31 -> (2 * len x + 1 < fuel)%nat ->
  returns (run pw fuel (6 + d) (prog_add limb32 p64) (if sg then "wrapping_signed" else "wrapping_unsigned") [] [arr x; arr y])
    (len x) (aval W sg x + aval W sg y) /\
  returns_flag (run pw fuel (6 + d) (prog_add limb32 p64) (if sg then "overflowing_signed" else "overflowing_unsigned") [] [arr x; arr y])
    (len x) (aval W sg x + aval W sg y) (~ afits W sg (len x) (aval W sg x + aval W sg y)).
Proof.
  intros limb32 p64 c pw fuel d HW Hpw sg x y H2 Hl Hx Hy Hb Hf.
  destruct (C69_add_sub c sg x y (limb_bits_ok _ _ _ HW) H2 Hl Hx Hy) as ((r & E & Hr) & _ & (r' & f & E' & Hr' & Hf') & _).
  split; [exists r|exists r', f]; (split; [|auto]); destruct sg; cbv beta iota delta [add_full add_full_o] in E, E'.
  - rewrite C111_add_wrapping_signed by (auto; lia). now rewrite E.
  - rewrite C111_add_wrapping_unsigned by (auto; lia). now rewrite E.
  - rewrite C111_add_overflowing_signed by (auto; lia). now rewrite E'.
  - rewrite C111_add_overflowing_unsigned by (auto; lia). now rewrite E'.
Qed.
Theorem C111_text_sub : forall limb32 p64 (c : Cfg) pw fuel d, W = limb_bits limb32 p64 -> 32 <= pw -> forall (sg : bool) x y,
  (2 <= len x)%nat -> len y = len x -> digits W x -> digits W y -> Z.of_nat (len x) < 2 ^ 31 -> (2 * len x + 1 < fuel)%nat ->
  returns (run pw fuel (6 + d) (prog_sub limb32 p64) (if sg then "wrapping_signed" else "wrapping_unsigned") [] [arr x; arr y])
    (len x) (aval W sg x - aval W sg y) /\
  returns_flag (run pw fuel (6 + d) (prog_sub limb32 p64) (if sg then "overflowing_signed" else "overflowing_unsigned") [] [arr x; arr y])
    (len x) (aval W sg x - aval W sg y) (~ afits W sg (len x) (aval W sg x - aval W sg y)).
Proof.
  intros limb32 p64 c pw fuel d HW Hpw sg x y H2 Hl Hx Hy Hb Hf.
  destruct (C69_add_sub c sg x y (limb_bits_ok _ _ _ HW) H2 Hl Hx Hy) as (_ & (r & E & Hr) & _ & (r' & f & E' & Hr' & Hf')).
  split; [exists r|exists r', f]; (split; [|auto]); destruct sg; cbv beta iota delta [sub_full sub_full_o] in E, E'.
  - rewrite C111_sub_wrapping_signed by (auto; lia). now rewrite E.
  - rewrite C111_sub_wrapping_unsigned by (auto; lia). now rewrite E.
  - rewrite C111_sub_overflowing_signed by (auto; lia). now rewrite E'.
  - rewrite C111_sub_overflowing_unsigned by (auto; lia). now rewrite E'.
Qed.
Theorem C111_text_mul : forall limb32 p64 (c : Cfg) pw fuel d, W = limb_bits limb32 p64 -> 32 <= pw -> forall x y,
  (1 <= len y <= len x)%nat -> digits W x -> digits W y -> Z.of_nat (len x) < 2 ^ 31 -> (2 * len x + 1 < fuel)%nat ->
  returns (run pw fuel (6 + d) (prog_mul limb32 p64) "wrapping_unsigned" [] [arr x; arr y])
    (len x) (lval W x * lval W y) /\
  returns_flag (run pw fuel (6 + d) (prog_mul limb32 p64) "overflowing_unsigned" [] [arr x; arr y])
    (len x) (lval W x * lval W y) (~ afits W false (len x) (lval W x * lval W y)).
Proof.
  intros limb32 p64 c pw fuel d HW Hpw x y Hl Hx Hy Hb Hf.
  destruct (C69_mul c x y (limb_bits_ok _ _ _ HW) Hl Hx Hy) as ((r & E & Hr) & (r' & f & E' & Hr' & Hf')).
  split; [exists r|exists r', f]; (split; [|auto]).
  - rewrite C111_mul_wrapping_unsigned by auto. now rewrite E.
  - rewrite C111_mul_overflowing_unsigned by auto. now rewrite E'.
Qed.
Theorem C111_text_widening : forall limb32 p64 (c : Cfg) pw fuel d, W = limb_bits limb32 p64 -> 32 <= pw -> forall x y,
  (1 <= len x)%nat -> len y = len x -> digits W x -> digits W y -> Z.of_nat (len x) < 2 ^ 31 -> (2 * len x + 1 < fuel)%nat ->
  exists lo hi, run pw fuel (6 + d) (prog_mul limb32 p64) "widening" [] [arr x; arr y] = Ok (VT [arr lo; arr hi]) /\
    len lo = len x /\ len hi = len x /\ digits W lo /\ digits W hi /\
    lval W lo + 2 ^ (W * Z.of_nat (len x)) * lval W hi = lval W x * lval W y.
Proof.
  intros limb32 p64 c pw fuel d HW Hpw x y H1 Hl Hx Hy Hb Hf.
  destruct (C69_widening c x y (limb_bits_ok _ _ _ HW) H1 Hl Hx Hy) as (lo & hi & E & H). exists lo, hi. split; [|exact H].
  rewrite C111_mul_widening by auto. now rewrite E.
Qed.
Theorem C111_text_mul_signed : forall limb32 p64 (c : Cfg) pw fuel d, W = limb_bits limb32 p64 -> 32 <= pw -> forall x y,
  (2 <= len x)%nat -> len y = len x -> digits W x -> digits W y -> Z.of_nat (len x) < 2 ^ 31 -> (2 * len x + 1 < fuel)%nat ->
  returns (run pw fuel (6 + d) (prog_mul limb32 p64) "wrapping_signed" [] [arr x; arr y])
    (len x) (aval W true x * aval W true y) /\
  returns_flag (run pw fuel (6 + d) (prog_mul limb32 p64) "overflowing_signed" [] [arr x; arr y])
    (len x) (aval W true x * aval W true y) (seen_overflow (len x) (aval W true x * aval W true y)).
Proof.
  intros limb32 p64 c pw fuel d HW Hpw x y H2 Hl Hx Hy Hb Hf.
  destruct (C69_mul_signed c x y (limb_bits_ok _ _ _ HW) H2 Hl Hx Hy) as ((r & E & Hr) & (r' & f & E' & Hr' & Hf')).
  split; [exists r|exists r', f]; (split; [|auto]).
  - rewrite C111_mul_wrapping_signed by auto. now rewrite E.
  - rewrite C111_mul_overflowing_signed by (auto; lia). now rewrite E'.
Qed.
(** The text itself misses an overflow: this is not an artefact of the model. *)
Theorem C111_text_mul_signed_refuted : exists limb32 p64 (c : Cfg) pw fuel d x y r,
  W = limb_bits limb32 p64 /\ 32 <= pw /\ len x = 4%nat /\ len y = 4%nat /\ digits W x /\ digits W y /\
  run pw fuel d (prog_mul limb32 p64) "overflowing_signed" [] [arr x; arr y] = Ok (VT [arr r; VB false]) /\
  ~ afits W true (len x) (aval W true x * aval W true y).
Proof.
  exists false, true, {| W := 64; N := 4; chk := true; dbg := true |}, 64, 20%nat, 6%nat.
  exists [1; 0; 0; 2 ^ 62], [2 ^ 64 - 2; 2 ^ 64 - 1; 2 ^ 64 - 1; 2 ^ 64 - 1], [2 ^ 64 - 2; 2 ^ 64 - 1; 2 ^ 64 - 1; 2 ^ 63 - 1].
  split; [reflexivity|]. split; [lia|]. split; [reflexivity|]. split; [reflexivity|].
  split; [repeat constructor; discriminate|]. split; [repeat constructor; discriminate|].
  split; [vm_compute; reflexivity|]. vm_compute. intros (H & _). apply H. reflexivity.
Qed.

(** The texts are read to the end, whatever the settings: 72 functions of
    add.rs and bigint.rs, 72 of sub.rs and bigint.rs, 69 of mul.rs and
    bigint.rs. *)
Definition counts (limb32 p64 : bool) : list nat :=
  [len (prog_add limb32 p64); len (prog_sub limb32 p64); len (prog_mul limb32 p64)].
Theorem C111_read : forall limb32 p64, counts limb32 p64 = [72; 72; 69]%nat.
Proof. intros [|] [|]; vm_compute; reflexivity. Qed.

(** Runs of the text. *)
Definition cfg64 : Cfg := {| W := 64; N := 4; chk := true; dbg := true |}.
Definition cfg32 : Cfg := {| W := 32; N := 8; chk := false; dbg := false |}.
Definition max64 : list Z := repeat (2 ^ 64 - 1) 4.
Example C111_ex_hyps : W (Cfg := cfg64) = limb_bits false true /\ W (Cfg := cfg32) = limb_bits true true /\
  (2 <= len max64)%nat /\ digits 64 max64 /\ Z.of_nat (len max64) < 2 ^ 31 /\ (2 * len max64 + 1 < 20)%nat.
Proof. repeat split; try reflexivity; try (cbn; lia). repeat constructor; discriminate. Qed.
Example C111_ex_add : run (c := cfg64) 64 20 6 (prog_add false true) "overflowing_unsigned" []
  [VA (IU 64) max64; VA (IU 64) [1; 0; 0; 0]] = Ok (VT [VA (IU 64) [0; 0; 0; 0]; VB true]).
Proof. vm_compute. reflexivity. Qed.
Example C111_ex_sub : run (c := cfg32) 32 20 6 (prog_sub true false) "overflowing_ilimb" []
  [VA (IU 32) [0; 2 ^ 31]; VI (IS 32) 1] = Ok (VT [VA (IU 32) [2 ^ 32 - 1; 2 ^ 31 - 1]; VB true]).
Proof. vm_compute. reflexivity. Qed.
Example C111_ex_mul : run (c := cfg64) 64 20 6 (prog_mul false true) "widening" []
  [VA (IU 64) max64; VA (IU 64) max64] = Ok (VT [VA (IU 64) [1; 0; 0; 0]; VA (IU 64) (2 ^ 64 - 2 :: repeat (2 ^ 64 - 1) 3)]).
Proof. vm_compute. reflexivity. Qed.
(** an error of the text is an error of the run: two words times an array of one *)
Example C111_ex_panic : run (c := cfg64) 64 20 6 (prog_mul false true) "wrapping_wide" []
  [VA (IU 64) [5]; VI (IU 128) 7] = Panic.
Proof. vm_compute. reflexivity. Qed.

(** ** Assumptions (each must print "Closed under the global context") *)

Print Assumptions C111_text_add.
Print Assumptions C111_text_sub.
Print Assumptions C111_text_mul.
Print Assumptions C111_text_widening.
Print Assumptions C111_text_mul_signed.
Print Assumptions C111_text_mul_signed_refuted.
Print Assumptions C111_read.
