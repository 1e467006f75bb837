(** * The text of src/math/add.rs *)

Require Import ZArith List Bool String Lia.
From Verif Require Import Prim MText SrcText MRun MAdd PText.
Import ListNotations.
Local Open Scope string_scope.
Local Open Scope list_scope.
Local Open Scope Z_scope.

(** the program, already read *)
Definition ADD64 : list fn := Eval vm_compute in prog_add false true.
Definition ADD32 : list fn := Eval vm_compute in prog_add true true.
Definition ADD (s : bool) : list fn := if s then ADD64 else ADD32.
Lemma prog_add_eq : forall limb32 p64, prog_add limb32 p64 = ADD (is64 limb32 p64).
Proof. intros [|] [|]; vm_compute; reflexivity. Qed.

Section A.
Context {c : Cfg} (s : bool) (HW : W = ww s) (pw : Z) (Hpw : 32 <= pw) (fuel : nat).
Notation call d f := (run pw fuel d (ADD s) f []).
Notation arr l := (VA (IU (ww s)) l).
Notation int z := (VI (IU (ww s)) z).
Notation wide z := (VI (IU (2 * ww s)) z).
Notation sint z := (VI (IS (ww s)) z).
Notation swide z := (VI (IS (2 * ww s)) z).
Notation len := List.length.

Lemma t_carrying_add : forall d x y b,
  call (S d) (nm s "carrying_add_u") [int x; int y; VB b] =
  let (v, b) := carrying_add x y b in Ok (VT [int v; VB b]).
Proof. widths s HW; intros; enter; reflexivity. Qed.

(** the variables in the loops *)
Definition R_full (x y : list Z) (i : nat) (st : list Z * bool) (en : env) : Prop :=
  exists j, en = [("vi", int j); ("c", VB (snd st)); ("result", VA IL (fst st)); ("index", VI IL (Z.of_nat i));
                  ("y", arr y); ("x", arr x); ("N", VI IX (Z.of_nat (len x)))].
Definition R_limb (x : list Z) (y : Z) (i : nat) (st : list Z * bool) (en : env) : Prop :=
  exists j, en = [("c", VB (snd st)); ("v", int j); ("result", VA IL (fst st)); ("index", VI IL (Z.of_nat i));
                  ("y", int y); ("x", arr x); ("N", VI IX (Z.of_nat (len x)))].
Definition R_mn (x y : list Z) (i : nat) (st : list Z * bool) (en : env) : Prop :=
  exists j, en = [("vi", int j); ("c", VB (snd st)); ("result", VA IL (fst st)); ("index", VI IL (Z.of_nat i));
                  ("y", arr y); ("x", arr x); ("N", VI IX (Z.of_nat (len y))); ("M", VI IX (Z.of_nat (len x)))].

Ltac loop R :=
  sx; the_loop R O;
  [ intros ?k ?i [?r ?cy] ?en ?Hi ?Hk [?j ->]; split;
    [ sx; truth
    | sx; apply agree_ok; eexists; reflexivity ]
  | intros ?k [?r ?cy] ?en [?j ->]; sx; truth
  | eexists; rewrite ?Nat2Z.id; reflexivity
  | lia
  | done_loop ltac:(fun st HR => destruct st as [?r ?cy]; destruct HR as [?j ->]; sx; try reflexivity) ].

Lemma t_wrapping_full : forall d x y,
  len y = len x -> (1 <= len x)%nat -> Z.of_nat (len x) < 2 ^ 31 -> (len x < fuel)%nat ->
  call (S (S d)) (nm s "wrapping_u") [arr x; arr y] = v_arr (ww s) (add_wrapping_full x y).
Proof.
  intros. pose proof t_carrying_add as Hc. set (R := R_full x y). unfold R_full in R.
  widths s HW; enter; unfold v_arr, add_wrapping_full; loop R.
Qed.

Lemma t_wrapping_limb : forall d x y,
  Z.of_nat (len x) < 2 ^ 31 -> (len x < fuel)%nat ->
  call (S d) (nm s "wrapping_limb_u") [arr x; int y] = v_arr (ww s) (add_wrapping_limb x y).
Proof.
  intros. set (R := R_limb x y). unfold R_limb in R.
  widths s HW; enter; unfold v_arr, add_wrapping_limb; loop R.
Qed.

Lemma t_wrapping_mn : forall d x y,
  Z.of_nat (len x) < 2 ^ 31 -> (len x < fuel)%nat ->
  call (S (S d)) (nm s "wrapping_mn_u") [arr x; arr y] = v_arr (ww s) (add_wrapping_mn x y).
Proof.
  intros. pose proof t_carrying_add as Hc. set (R := R_mn x y). unfold R_mn in R.
  widths s HW; enter; unfold v_arr, add_wrapping_mn; loop R; loop R.
Qed.

Lemma t_wrapping_wide : forall d x y,
  Z.of_nat (len x) < 2 ^ 31 -> (len x < fuel)%nat ->
  call (S (S (S d))) (nm s "wrapping_wide_u") [arr x; wide y] = v_arr (ww s) (add_wrapping_wide x y).
Proof.
  intros. pose proof t_wrapping_mn as Hmn.
  widths s HW; enter; unfold v_arr in *; unfold add_wrapping_wide, wide_limbs; sx;
    destruct (add_wrapping_mn _ _) as [[]| |] || destruct (add_wrapping_mn _ _) as [| |]; reflexivity.
Qed.

Lemma t_swrapping_full : forall d x y,
  len y = len x -> Z.of_nat (len x) < 2 ^ 31 -> (len x < fuel)%nat ->
  call (S (S d)) (nm s "wrapping_i") [arr x; arr y] = v_arr (ww s) (sadd_wrapping_full x y).
Proof.
  intros. pose proof t_carrying_add as Hc. set (R := R_full x y). unfold R_full in R.
  widths s HW; enter; unfold v_arr, sadd_wrapping_full, add_wrapping_full; loop R.
Qed.

Lemma t_wrapping_ulimb : forall d x y,
  Z.of_nat (len x) < 2 ^ 31 -> (len x < fuel)%nat ->
  call (S d) (nm s "wrapping_ulimb_i") [arr x; int y] = v_arr (ww s) (sadd_wrapping_ulimb x y).
Proof.
  intros. set (R := R_limb x y). unfold R_limb in R.
  widths s HW; enter; unfold v_arr, sadd_wrapping_ulimb, add_wrapping_limb; loop R.
Qed.

Lemma t_wrapping_ilimb : forall d x y,
  Z.of_nat (len x) < 2 ^ 31 -> (len x < fuel)%nat ->
  call (S (S (S d))) (nm s "wrapping_ilimb_i") [arr x; sint y] = v_arr (ww s) (sadd_wrapping_ilimb x y).
Proof.
  intros. pose proof t_swrapping_full as Hmn.
  widths s HW; enter; unfold v_arr in *; unfold sadd_wrapping_ilimb, ilimb_limbs, sign_limb; sx;
    destruct (sadd_wrapping_full _ _) as [[]| |] || destruct (sadd_wrapping_full _ _) as [| |]; reflexivity.
Qed.

Lemma t_wrapping_uwide : forall d x y,
  Z.of_nat (len x) < 2 ^ 31 -> (len x < fuel)%nat ->
  call (S (S (S d))) (nm s "wrapping_uwide_i") [arr x; wide y] = v_arr (ww s) (sadd_wrapping_uwide x y).
Proof.
  intros. pose proof t_swrapping_full as Hmn.
  widths s HW; enter; unfold v_arr in *; unfold sadd_wrapping_uwide, uwide_limbs, sign_limb; sx;
    destruct (sadd_wrapping_full _ _) as [[]| |] || destruct (sadd_wrapping_full _ _) as [| |]; reflexivity.
Qed.

Lemma t_wrapping_iwide : forall d x y,
  Z.of_nat (len x) < 2 ^ 31 -> (len x < fuel)%nat ->
  call (S (S (S d))) (nm s "wrapping_iwide_i") [arr x; swide y] = v_arr (ww s) (sadd_wrapping_iwide x y).
Proof.
  intros. pose proof t_swrapping_full as Hmn.
  widths s HW; enter; unfold v_arr in *; unfold sadd_wrapping_iwide, iwide_limbs, sign_limb; sx;
    destruct (sadd_wrapping_full _ _) as [[]| |] || destruct (sadd_wrapping_full _ _) as [| |]; reflexivity.
Qed.

Lemma t_overflowing_full : forall d x y,
  len y = len x -> (1 <= len x)%nat -> Z.of_nat (len x) < 2 ^ 31 -> (len x < fuel)%nat ->
  call (S (S d)) (nm s "overflowing_u") [arr x; arr y] = v_arrb (ww s) (add_overflowing_full x y).
Proof.
  intros. pose proof t_carrying_add as Hc. set (R := R_full x y). unfold R_full in R.
  widths s HW; enter; unfold v_arrb, add_overflowing_full; loop R.
Qed.

Lemma t_overflowing_limb : forall d x y,
  Z.of_nat (len x) < 2 ^ 31 -> (len x < fuel)%nat ->
  call (S d) (nm s "overflowing_limb_u") [arr x; int y] = v_arrb (ww s) (add_overflowing_limb x y).
Proof.
  intros. set (R := R_limb x y). unfold R_limb in R.
  widths s HW; enter; unfold v_arrb, add_overflowing_limb; loop R.
Qed.

Lemma t_overflowing_mn : forall d x y,
  Z.of_nat (len x) < 2 ^ 31 -> (len x < fuel)%nat ->
  call (S (S d)) (nm s "overflowing_mn_u") [arr x; arr y] = v_arrb (ww s) (add_overflowing_mn x y).
Proof.
  intros. pose proof t_carrying_add as Hc. set (R := R_mn x y). unfold R_mn in R.
  widths s HW; enter; unfold v_arrb, add_overflowing_mn; loop R; loop R.
Qed.

Lemma t_overflowing_wide : forall d x y,
  Z.of_nat (len x) < 2 ^ 31 -> (len x < fuel)%nat ->
  call (S (S (S d))) (nm s "overflowing_wide_u") [arr x; wide y] = v_arrb (ww s) (add_overflowing_wide x y).
Proof.
  intros. pose proof t_overflowing_mn as Hmn.
  widths s HW; enter; unfold v_arrb in *; unfold add_overflowing_wide, wide_limbs; sx;
    destruct (add_overflowing_mn _ _) as [[]| |] || destruct (add_overflowing_mn _ _) as [| |]; reflexivity.
Qed.

Lemma t_soverflowing_full : forall d x y,
  len y = len x -> Z.of_nat (len x) < 2 ^ 31 -> (len x < fuel)%nat ->
  call (S (S d)) (nm s "overflowing_i") [arr x; arr y] = v_arrb (ww s) (sadd_overflowing_full x y).
Proof.
  intros. pose proof t_carrying_add as Hc. set (R := R_full x y). unfold R_full in R.
  widths s HW; enter; unfold v_arrb, sadd_overflowing_full; loop R.
Qed.

Lemma t_overflowing_ulimb : forall d x y,
  Z.of_nat (len x) < 2 ^ 31 -> (len x < fuel)%nat ->
  call (S d) (nm s "overflowing_ulimb_i") [arr x; int y] = v_arrb (ww s) (sadd_overflowing_ulimb x y).
Proof.
  intros. set (R := R_limb x y). unfold R_limb in R.
  widths s HW; enter; unfold v_arrb, sadd_overflowing_ulimb; loop R.
Qed.

Lemma t_overflowing_ilimb : forall d x y,
  Z.of_nat (len x) < 2 ^ 31 -> (len x < fuel)%nat ->
  call (S (S (S d))) (nm s "overflowing_ilimb_i") [arr x; sint y] = v_arrb (ww s) (sadd_overflowing_ilimb x y).
Proof.
  intros. pose proof t_soverflowing_full as Hmn.
  widths s HW; enter; unfold v_arrb in *; unfold sadd_overflowing_ilimb, ilimb_limbs, sign_limb; sx;
    destruct (sadd_overflowing_full _ _) as [[]| |] || destruct (sadd_overflowing_full _ _) as [| |]; reflexivity.
Qed.

Lemma t_overflowing_uwide : forall d x y,
  Z.of_nat (len x) < 2 ^ 31 -> (len x < fuel)%nat ->
  call (S (S (S d))) (nm s "overflowing_uwide_i") [arr x; wide y] = v_arrb (ww s) (sadd_overflowing_uwide x y).
Proof.
  intros. pose proof t_soverflowing_full as Hmn.
  widths s HW; enter; unfold v_arrb in *; unfold sadd_overflowing_uwide, uwide_limbs, sign_limb; sx;
    destruct (sadd_overflowing_full _ _) as [[]| |] || destruct (sadd_overflowing_full _ _) as [| |]; reflexivity.
Qed.

Lemma t_overflowing_iwide : forall d x y,
  Z.of_nat (len x) < 2 ^ 31 -> (len x < fuel)%nat ->
  call (S (S (S d))) (nm s "overflowing_iwide_i") [arr x; swide y] = v_arrb (ww s) (sadd_overflowing_iwide x y).
Proof.
  intros. pose proof t_soverflowing_full as Hmn.
  widths s HW; enter; unfold v_arrb in *; unfold sadd_overflowing_iwide, iwide_limbs, sign_limb; sx;
    destruct (sadd_overflowing_full _ _) as [[]| |] || destruct (sadd_overflowing_full _ _) as [| |]; reflexivity.
Qed.

End A.
