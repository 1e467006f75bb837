(** * The text of src/math/mul.rs, functions with other operands *)

Require Import ZArith List Bool String Lia.
From Verif Require Import Prim Spec MText SrcText MRun MAdd MMul PText PTextMul PTextMulS PTextMulT.
Import ListNotations.
Local Open Scope string_scope.
Local Open Scope list_scope.
Local Open Scope Z_scope.

Section A.
Context {c : Cfg} (s : bool) (HW : W = ww s) (pw : Z) (Hpw : 32 <= pw) (fuel : nat).
Notation call d f := (run pw fuel d (MUL s) f []).
Notation arr l := (VA (IU (ww s)) l).
Notation int z := (VI (IU (ww s)) z).
Notation wide z := (VI (IU (2 * ww s)) z).
Notation sint z := (VI (IS (ww s)) z).
Notation swide z := (VI (IS (2 * ww s)) z).
Notation nat_ n := (VI IX (Z.of_nat n)).
Notation len := List.length.
Notation dg l := (Forall (fun x => 0 <= x < 2 ^ ww s) l).

Lemma t_wrapping_limb : forall d x y, 0 <= y < 2 ^ ww s -> dg x -> Z.of_nat (len x) < 2 ^ 31 -> (2 * len x + 1 < fuel)%nat ->
  call (S (S (S d))) (nm s "wrapping_limb_u") [arr x; int y] = v_arr (ww s) (mul_wrapping_limb x y).
Proof.
  intros. pose proof (t_wrapping_full s HW pw Hpw fuel) as Hmn.
  widths s HW; enter; unfold v_arr in *; unfold mul_wrapping_limb; sx;
    destruct (mul_wrapping_full _ _) as [[]| |] || destruct (mul_wrapping_full _ _) as [| |]; reflexivity.
Qed.
Lemma t_wrapping_wide : forall d x y, dg x -> Z.of_nat (len x) < 2 ^ 31 -> (2 * len x + 1 < fuel)%nat ->
  call (S (S (S d))) (nm s "wrapping_wide_u") [arr x; wide y] = v_arr (ww s) (mul_wrapping_wide x y).
Proof.
  intros. pose proof (t_wrapping_full s HW pw Hpw fuel) as Hmn.
  widths s HW; enter; unfold v_arr in *; unfold mul_wrapping_wide, wide_limbs; sx;
    destruct (mul_wrapping_full _ _) as [[]| |] || destruct (mul_wrapping_full _ _) as [| |]; reflexivity.
Qed.
Lemma t_overflowing_limb : forall d x y, 0 <= y < 2 ^ ww s -> dg x -> Z.of_nat (len x) < 2 ^ 31 -> (2 * len x + 1 < fuel)%nat ->
  call (S (S (S d))) (nm s "overflowing_limb_u") [arr x; int y] = v_arrb (ww s) (mul_overflowing_limb x y).
Proof.
  intros. pose proof (t_overflowing_full s HW pw Hpw fuel) as Hmn.
  widths s HW; enter; unfold v_arrb in *; unfold mul_overflowing_limb; sx;
    destruct (mul_overflowing_full _ _) as [[]| |] || destruct (mul_overflowing_full _ _) as [| |]; reflexivity.
Qed.
Lemma t_overflowing_wide : forall d x y, dg x -> Z.of_nat (len x) < 2 ^ 31 -> (2 * len x + 1 < fuel)%nat ->
  call (S (S (S d))) (nm s "overflowing_wide_u") [arr x; wide y] = v_arrb (ww s) (mul_overflowing_wide x y).
Proof.
  intros. pose proof (t_overflowing_full s HW pw Hpw fuel) as Hmn.
  widths s HW; enter; unfold v_arrb in *; unfold mul_overflowing_wide, wide_limbs; sx;
    destruct (mul_overflowing_full _ _) as [[]| |] || destruct (mul_overflowing_full _ _) as [| |]; reflexivity.
Qed.
Lemma t_swrapping_full : forall d x y, dg y -> dg x -> Z.of_nat (len x) < 2 ^ 31 -> (2 * len x + 1 < fuel)%nat ->
  call (S (S (S d))) (nm s "wrapping_i") [arr x; arr y] = v_arr (ww s) (smul_wrapping_full x y).
Proof.
  intros. pose proof (t_wrapping_full s HW pw Hpw fuel) as Hmn.
  widths s HW; enter; unfold v_arr in *; unfold smul_wrapping_full; sx;
    destruct (mul_wrapping_full _ _) as [[]| |] || destruct (mul_wrapping_full _ _) as [| |]; reflexivity.
Qed.
Lemma t_wrapping_ulimb : forall d x y, 0 <= y < 2 ^ ww s -> dg x -> Z.of_nat (len x) < 2 ^ 31 -> (2 * len x + 1 < fuel)%nat ->
  call (S (S (S d))) (nm s "wrapping_ulimb_i") [arr x; int y] = v_arr (ww s) (smul_wrapping_ulimb x y).
Proof.
  intros. pose proof (t_wrapping_full s HW pw Hpw fuel) as Hmn.
  widths s HW; enter; unfold v_arr in *; unfold smul_wrapping_ulimb; sx;
    destruct (mul_wrapping_full _ _) as [[]| |] || destruct (mul_wrapping_full _ _) as [| |]; reflexivity.
Qed.
Lemma t_wrapping_uwide : forall d x y, dg x -> Z.of_nat (len x) < 2 ^ 31 -> (2 * len x + 1 < fuel)%nat ->
  call (S (S (S d))) (nm s "wrapping_uwide_i") [arr x; wide y] = v_arr (ww s) (smul_wrapping_uwide x y).
Proof.
  intros. pose proof (t_wrapping_full s HW pw Hpw fuel) as Hmn.
  widths s HW; enter; unfold v_arr in *; unfold smul_wrapping_uwide, wide_limbs; sx;
    destruct (mul_wrapping_full _ _) as [[]| |] || destruct (mul_wrapping_full _ _) as [| |]; reflexivity.
Qed.
Lemma t_wrapping_ilimb : forall d x y, dg x -> Z.of_nat (len x) < 2 ^ 31 -> (2 * len x + 1 < fuel)%nat ->
  call (S (S (S d))) (nm s "wrapping_ilimb_i") [arr x; sint y] = v_arr (ww s) (smul_wrapping_ilimb x y).
Proof.
  intros. pose proof (t_wrapping_full s HW pw Hpw fuel) as Hmn.
  widths s HW; enter; unfold v_arr in *; unfold smul_wrapping_ilimb, ilimb_limbs, sign_limb; sx;
    destruct (mul_wrapping_full _ _) as [[]| |] || destruct (mul_wrapping_full _ _) as [| |]; reflexivity.
Qed.
Lemma t_wrapping_iwide : forall d x y, dg x -> Z.of_nat (len x) < 2 ^ 31 -> (2 * len x + 1 < fuel)%nat ->
  call (S (S (S d))) (nm s "wrapping_iwide_i") [arr x; swide y] = v_arr (ww s) (smul_wrapping_iwide x y).
Proof.
  intros. pose proof (t_wrapping_full s HW pw Hpw fuel) as Hmn.
  widths s HW; enter; unfold v_arr in *; unfold smul_wrapping_iwide, iwide_limbs, sign_limb; sx;
    destruct (mul_wrapping_full _ _) as [[]| |] || destruct (mul_wrapping_full _ _) as [| |]; reflexivity.
Qed.
Lemma t_overflowing_ulimb : forall d x y, (1 <= len x)%nat -> 0 <= y < 2 ^ ww s -> dg x -> Z.of_nat (len x) < 2 ^ 31 -> (2 * len x + 1 < fuel)%nat ->
  call (S (S (S (S d)))) (nm s "overflowing_ulimb_i") [arr x; int y] = v_arrb (ww s) (smul_overflowing_ulimb x y).
Proof.
  intros. pose proof (t_soverflowing_full s HW pw Hpw fuel) as Hmn.
  widths s HW; enter; unfold v_arrb in *; unfold smul_overflowing_ulimb; sx;
    destruct (smul_overflowing_full _ _) as [[]| |] || destruct (smul_overflowing_full _ _) as [| |]; reflexivity.
Qed.
Lemma t_overflowing_uwide : forall d x y, (1 <= len x)%nat -> dg x -> Z.of_nat (len x) < 2 ^ 31 -> (2 * len x + 1 < fuel)%nat ->
  call (S (S (S (S d)))) (nm s "overflowing_uwide_i") [arr x; wide y] = v_arrb (ww s) (smul_overflowing_uwide x y).
Proof.
  intros. pose proof (t_soverflowing_full s HW pw Hpw fuel) as Hmn.
  widths s HW; enter; unfold v_arrb in *; unfold smul_overflowing_uwide, uwide_limbs; sx;
    destruct (smul_overflowing_full _ _) as [[]| |] || destruct (smul_overflowing_full _ _) as [| |]; reflexivity.
Qed.
Lemma t_overflowing_ilimb : forall d x y, (1 <= len x)%nat -> dg x -> Z.of_nat (len x) < 2 ^ 31 -> (2 * len x + 1 < fuel)%nat ->
  call (S (S (S (S d)))) (nm s "overflowing_ilimb_i") [arr x; sint y] = v_arrb (ww s) (smul_overflowing_ilimb x y).
Proof.
  intros. pose proof (t_soverflowing_full s HW pw Hpw fuel) as Hmn.
  widths s HW; enter; unfold v_arrb in *; unfold smul_overflowing_ilimb, ilimb_limbs, sign_limb; sx;
    destruct (smul_overflowing_full _ _) as [[]| |] || destruct (smul_overflowing_full _ _) as [| |]; reflexivity.
Qed.
Lemma t_overflowing_iwide : forall d x y, (1 <= len x)%nat -> dg x -> Z.of_nat (len x) < 2 ^ 31 -> (2 * len x + 1 < fuel)%nat ->
  call (S (S (S (S d)))) (nm s "overflowing_iwide_i") [arr x; swide y] = v_arrb (ww s) (smul_overflowing_iwide x y).
Proof.
  intros. pose proof (t_soverflowing_full s HW pw Hpw fuel) as Hmn.
  widths s HW; enter; unfold v_arrb in *; unfold smul_overflowing_iwide, iwide_limbs, sign_limb; sx;
    destruct (smul_overflowing_full _ _) as [[]| |] || destruct (smul_overflowing_full _ _) as [| |]; reflexivity.
Qed.

(** widening *)
Definition wvars (x y lo hi : list Z) (carry vij : Z) (i j : nat) : env :=
  [("j", nat_ j); ("i", nat_ i); ("vij", int vij); ("carry", int carry); ("hi", arr hi); ("lo", arr lo);
   ("y", arr y); ("x", arr x); ("M", nat_ (len x))].
Definition Rw_out (x y : list Z) (i : nat) (st : list Z * list Z) (en : env) : Prop :=
  exists carry vij j, en = wvars x y (fst st) (snd st) carry vij i j /\ dg (fst st) /\ dg (snd st).
Definition Rw_in (x y : list Z) (i : nat) (xi : Z) (j : nat) (st : list Z * list Z * Z) (en : env) : Prop :=
  let '(lo, hi, carry) := st in
  exists vij, en = ("xi", int xi) :: wvars x y lo hi carry vij i j /\ dg lo /\ dg hi /\ 0 <= carry < 2 ^ ww s.
Lemma t_widening : forall d x y, len y = len x -> dg x -> dg y ->
  Z.of_nat (len x) < 2 ^ 31 -> (2 * len x + 1 < fuel)%nat ->
  call (S (S d)) (nm s "widening_u") [arr x; arr y] =
  let* (lo, hi) := mul_widening x y in Ok (VT [arr lo; arr hi]).
Proof.
  intros d x y Hl Hx Hy H1 H2. pose proof (t_mac s HW pw fuel) as Hc. pose proof (mac_dig s HW) as Hd.
  pose proof (zeros_dig s HW) as Hz.
  set (Ro := Rw_out x y). unfold Rw_out, wvars in Ro.
  set (Ri := Rw_in x y). unfold Rw_in, wvars in Ri.
  widths s HW; cbn [W] in Hd.
  all: enter; unfold mul_widening; sx; the_loop Ro (S (len x));
    [ intros k i [lo hi] en Hi Hk (carry & vij & j & -> & Hlo & Hhi); cbn [fst snd] in *; split;
      [ sx; truth
      | sx; the_loop (Ri i g) O;
        [ intros k' j' [[lo' hi'] cy'] en Hj Hk' (vij' & -> & Hlo' & Hhi' & Hcy'); split;
          [ sx; truth
          | sx; apply agree_ok; eexists; (split; [reflexivity|split; [digits_ Hd|split; digits_ Hd]]) ]
        | intros k' [[lo' hi'] cy'] en (vij' & -> & Hlo' & Hhi' & Hcy'); sx; truth
        | eexists; (split; [reflexivity|]); split; [assumption|split; [assumption|cbn; lia]]
        | lia
        | done_loop ltac:(fun st HR => destruct st as [[lo' hi'] cy']; destruct HR as (vij' & -> & Hlo' & Hhi' & Hcy'); sx;
            apply agree_ok; do 3 eexists; (split; [reflexivity|split; digits_ Hd])) ] ]
    | intros k [lo hi] en (carry & vij & j & -> & Hlo & Hhi); cbn [fst snd] in *; sx; truth
    | exists 0, 0, O; (split; [reflexivity|split; apply Hz])
    | lia
    | done_loop ltac:(fun st HR => destruct st as [lo hi]; destruct HR as (carry & vij & j & -> & Hlo & Hhi); sx; reflexivity) ].
Qed.
End A.
