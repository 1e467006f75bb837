(** * The text of src/math/mul.rs *)

Require Import ZArith List Bool String Lia.
From Verif Require Import Prim Spec MText SrcText MRun MAdd MMul PText.
Import ListNotations.
Local Open Scope string_scope.
Local Open Scope list_scope.
Local Open Scope Z_scope.

(** the program, already read *)
Definition MUL64 : list fn := Eval vm_compute in prog_mul false true.
Definition MUL32 : list fn := Eval vm_compute in prog_mul true true.
Definition MUL (s : bool) : list fn := if s then MUL64 else MUL32.
Lemma prog_mul_eq : forall limb32 p64, prog_mul limb32 p64 = MUL (is64 limb32 p64).
Proof. intros [|] [|]; vm_compute; reflexivity. Qed.

Section A.
Context {c : Cfg} (s : bool) (HW : W = ww s) (pw : Z) (Hpw : 32 <= pw) (fuel : nat).
Notation call d f := (run pw fuel d (MUL s) f []).
Notation arr l := (VA (IU (ww s)) l).
Notation int z := (VI (IU (ww s)) z).
Notation wide z := (VI (IU (2 * ww s)) z).
Notation sint z := (VI (IS (ww s)) z).
Notation swide z := (VI (IS (2 * ww s)) z).
Notation nat_ n := (VI IX (Z.of_nat n)).
Notation len := List.length.
Notation dg l := (Forall (fun x => 0 <= x < 2 ^ ww s) l).

Lemma t_mac : forall d a b e k,
  0 <= a < 2 ^ ww s -> 0 <= b < 2 ^ ww s -> 0 <= e < 2 ^ ww s -> 0 <= k < 2 ^ ww s ->
  call (S d) (nm s "mac_u") [int a; int b; int e; int k] =
  let* (v, cy) := mac a b e k in Ok (VT [int v; int cy]).
Proof.
  intros d a b e k Ha Hb He Hk.
  assert (Hc : forall z, 0 <= z < 2 ^ ww s -> ucast (2 * ww s) z = z).
  { intros z Hz. unfold ucast. apply Z.mod_small. split; [lia|].
    assert (2 ^ ww s <= 2 ^ (2 * ww s)) by (apply Z.pow_le_mono_r; destruct s; cbn; lia). lia. }
  pose proof (Hc a Ha) as Ea. pose proof (Hc b Hb) as Eb. pose proof (Hc e He) as Ee. pose proof (Hc k Hk) as Ek.
  clear Hc. widths s HW; enter; unfold mac; nats; one_stmt; nats;
    change (2 * 64) with 128 in *; change (2 * 32) with 64 in *; rewrite ?Ea, ?Eb, ?Ee, ?Ek;
    sx; reflexivity.
Qed.
Lemma mac_dig : forall a b e k v cy, mac a b e k = Ok (v, cy) -> 0 <= v < 2 ^ W /\ 0 <= cy < 2 ^ W.
Proof.
  intros a b e k v cy. unfold mac. destruct (umul _ _ _); [|discriminate..]. cbn [bind].
  destruct (uadd _ _ _); [|discriminate..]. cbn [bind]. destruct (uadd _ _ _); [|discriminate..]. cbn [bind].
  destruct (ushr _ _ _); [|discriminate..]. cbn [bind]. intros [= <- <-]. unfold ucast.
  assert (0 < 2 ^ W) by (apply Z.pow_pos_nonneg; [lia|]; rewrite HW; destruct s; cbn; lia).
  split; apply Z.mod_pos_bound; assumption.
Qed.
Lemma zeros_dig : forall n, dg (repeat 0 n).
Proof.
  intros. apply Forall_forall. intros z Hz. apply repeat_spec in Hz. subst.
  split; [lia|]. apply Z.pow_pos_nonneg; [lia|]; destruct s; cbn; lia.
Qed.

(** the variables in the loops *)
Definition vars (x y r : list Z) (carry vij : Z) (i j : nat) : env :=
  [("j", nat_ j); ("i", nat_ i); ("vij", int vij); ("carry", int carry); ("r", arr r);
   ("y", arr y); ("x", arr x); ("N", nat_ (len y)); ("M", nat_ (len x))].
Definition R_out (x y : list Z) (i : nat) (r : list Z) (en : env) : Prop :=
  exists carry vij j, en = vars x y r carry vij i j /\ dg r.
Definition R_in (x y : list Z) (i : nat) (xi : Z) (j : nat) (st : list Z * Z) (en : env) : Prop :=
  exists vij, en = ("xi", int xi) :: vars x y (fst st) (snd st) vij i j /\ dg (fst st) /\ 0 <= snd st < 2 ^ ww s.

Lemma t_wrapping_full : forall d x y, dg x -> dg y ->
  Z.of_nat (len x) < 2 ^ 31 -> (2 * len x + 1 < fuel)%nat ->
  call (S (S d)) (nm s "wrapping_u") [arr x; arr y] = v_arr (ww s) (mul_wrapping_full x y).
Proof.
  intros d x y Hx Hy H1 H2. pose proof t_mac as Hc. pose proof mac_dig as Hd. pose proof zeros_dig as Hz.
  set (Ro := R_out x y). unfold R_out, vars in Ro.
  set (Ri := R_in x y). unfold R_in, vars in Ri.
  widths s HW; cbn [W] in Hd.
  all: enter; unfold v_arr, mul_wrapping_full; sx; the_loop Ro (S (len y));
    [ intros k i r en Hi Hk (carry & vij & j & -> & Hr); split;
      [ sx; truth
      | sx; the_loop (Ri i g) O;
        [ intros k' j' [r' cy'] en Hj Hk' (vij' & -> & Hr' & Hcy'); cbn [fst snd] in *; split;
          [ sx; truth
          | sx; apply agree_ok; eexists; (split; [reflexivity|cbn [fst snd]; split; digits_ Hd]) ]
        | intros k' [r' cy'] en (vij' & -> & Hr' & Hcy'); cbn [fst snd] in *; sx; truth
        | eexists; split; [reflexivity|]; split; [assumption|cbn; lia]
        | lia
        | done_loop ltac:(fun st HR => destruct st as [r' cy']; destruct HR as (vij' & -> & Hr' & Hcy'); cbn [fst snd] in *; sx;
            apply agree_ok; do 3 eexists; (split; [reflexivity|digits_ Hd])) ] ]
    | intros k r en (carry & vij & j & -> & Hr); sx; truth
    | exists 0, 0, O; split; [reflexivity|apply Hz]
    | lia
    | done_loop ltac:(fun st HR => destruct HR as (carry & vij & j & -> & Hr); sx; reflexivity) ].
Qed.

Definition ovars (x y r : list Z) (ov : bool) (carry vij : Z) (i j : nat) : env :=
  [("j", nat_ j); ("i", nat_ i); ("overflowed", VB ov); ("vij", int vij); ("carry", int carry); ("r", arr r);
   ("y", arr y); ("x", arr x); ("N", nat_ (len y)); ("M", nat_ (len x))].
Definition Ro_out (x y : list Z) (i : nat) (st : list Z * bool) (en : env) : Prop :=
  exists carry vij j, en = ovars x y (fst st) (snd st) carry vij i j /\ dg (fst st).
Definition Ro_in (x y : list Z) (i : nat) (xi : Z) (j : nat) (st : list Z * Z * bool * bool) (en : env) : Prop :=
  let '(r, carry, ov, _) := st in
  exists vij, en = ("xi", int xi) :: ovars x y r ov carry vij i j /\ dg r /\ 0 <= carry < 2 ^ ww s.

Lemma t_overflowing_full : forall d x y, dg x -> dg y ->
  Z.of_nat (len x) < 2 ^ 31 -> (2 * len x + 1 < fuel)%nat ->
  call (S (S d)) (nm s "overflowing_u") [arr x; arr y] = v_arrb (ww s) (mul_overflowing_full x y).
Proof.
  intros d x y Hx Hy H1 H2. pose proof t_mac as Hc. pose proof mac_dig as Hd. pose proof zeros_dig as Hz.
  set (Ro := Ro_out x y). unfold Ro_out, ovars in Ro.
  set (Ri := Ro_in x y). unfold Ro_in, ovars in Ri.
  widths s HW; cbn [W] in Hd.
  all: enter; unfold v_arrb, mul_overflowing_full; sx; the_loop Ro (S (len y));
    [ intros k i [r ov] en Hi Hk (carry & vij & j & -> & Hr); cbn [fst snd] in *; split;
      [ sx; truth
      | sx; brk_loop (fun st : list Z * Z * bool * bool => snd st) (Ri i g)
              (fun (st : list Z * Z * bool * bool) en => exists j, Ri i g j st en) O;
        [ intros i' [[[r' cy'] ov'] brk'] Hb; cbn [snd] in Hb; subst brk'; reflexivity
        | intros k' j' [[[r' cy'] ov'] brk'] en Hj Hk' (vij' & -> & Hr' & Hcy') Hb; cbn [snd] in Hb; subst brk'; split;
          [ sx; truth
          | sx;
            first [ apply agree2_next; [reflexivity|eexists; (split; [reflexivity|split; digits_ Hd])]
                  | apply agree2_brk; [reflexivity|eexists; eexists; (split; [reflexivity|split; digits_ Hd])] ] ]
        | intros k' [[[r' cy'] ov'] brk'] en HR Hb;
          split; [destruct HR as (vij' & -> & Hr' & Hcy'); sx; truth|eexists; exact HR]
        | eexists; (split; [reflexivity|]); split; [assumption|cbn; lia]
        | reflexivity
        | lia
        | done_loop ltac:(fun st HR => destruct st as [[[r' cy'] ov'] brk'];
            destruct HR as (j' & vij' & -> & Hr' & Hcy'); sx;
            apply agree_ok; do 3 eexists; (split; [reflexivity|digits_ Hd])) ] ]
    | intros k [r ov] en (carry & vij & j & -> & Hr); sx; truth
    | exists 0, 0, O; (split; [reflexivity|apply Hz])
    | lia
    | done_loop ltac:(fun st HR => destruct st as [r ov]; destruct HR as (carry & vij & j & -> & Hr); sx; reflexivity) ].
Qed.
End A.
