(** * The text of src/math/mul.rs, signed, and the rest *)

Require Import ZArith List Bool String Lia.
From Verif Require Import Prim Spec MText SrcText MRun MAdd MMul PText PTextMul PTextMulS.
Import ListNotations.
Local Open Scope string_scope.
Local Open Scope list_scope.
Local Open Scope Z_scope.

Section A.
Context {c : Cfg} (s : bool) (HW : W = ww s) (pw : Z) (Hpw : 32 <= pw) (fuel : nat).
Notation call d f := (run pw fuel d (MUL s) f []).
Notation arr l := (VA (IU (ww s)) l).
Notation int z := (VI (IU (ww s)) z).
Notation wide z := (VI (IU (2 * ww s)) z).
Notation sint z := (VI (IS (ww s)) z).
Notation swide z := (VI (IS (2 * ww s)) z).
Notation nat_ n := (VI IX (Z.of_nat n)).
Notation len := List.length.
Notation dg l := (Forall (fun x => 0 <= x < 2 ^ ww s) l).

Ltac neg_call Hx Hy Hr Hs :=
  lazymatch goal with
  | |- context [@exec_blk ?cc ?p ?w ?cl ?b ?en] =>
    lazymatch b with
    | BCons (SLet (PV "result") _ _) _ =>
      let m := model_head in
      lazymatch m with negate _ => idtac end;
      let H := fresh "Hneg" in
      assert (H : yields m (@exec_blk cc p w cl b en) lit);
      [ first [ apply Hx | apply Hy | eapply Hr ]; side
      | unfold yields in H; let l := fresh "l" in let E := fresh "E" in
        destruct m as [l| |] eqn:E;
        [ destruct H as (?en1 & H); rewrite H; clear H; change (lit l) with (VA IL l); apply Hs in E; destruct E
        | rewrite H; clear H; reflexivity .. ];
        binds; norm ]
    end
  end.
Ltac neg_if :=
  let m := model_head in
  lazymatch m with if ?b then negate _ else _ => destruct b eqn:?; cbv beta iota delta [andb negb xorb orb] end.
(** the end of the text of [overflowing_full], from the call *)
Fixpoint skip_stmts (k : nat) (b : blk) : blk := match k, b with S k, BCons _ b => skip_stmts k b | _, _ => b end.
Definition TAIL64 : blk := Eval vm_compute in
  match find_fn MUL64 "overflowing_i64" with Some f => skip_stmts 5 (f_body f) | None => BNil end.
Definition TAIL32 : blk := Eval vm_compute in
  match find_fn MUL32 "overflowing_i32" with Some f => skip_stmts 5 (f_body f) | None => BNil end.
Definition arrb (w : Z) (r : list Z * bool) : val := VT [VA (IU w) (fst r); VB (snd r)].
Lemma t_tail : forall (cl : string -> list val -> list val -> res val) k vx vy x' y' b1 b2 b3 x y,
  cl (nm s "overflowing_u") [] [vx; vy] = v_arrb (ww s) (mul_overflowing_full x' y') ->
  len x' = len x -> (1 <= len x)%nat -> Z.of_nat (len x) < 2 ^ 31 -> (len x < k)%nat ->
  yields
    (let* (r, overflowed) := mul_overflowing_full x' y' in
     let* top := get r (len x - 1) in
     if negb b1 then Ok (r, overflowed || (scast W top <? 0))
     else
       let* r := negate r in
       Ok (r, overflowed || xorb (scast W top <? 0) (scast W top =? - 2 ^ (W - 1))))
    (exec_blk pw (wh pw cl k) cl (if s then TAIL64 else TAIL32)
       [("y", vy); ("x", vx); ("should_be_negative", VB b1); ("y_is_negative", VB b2); ("x_is_negative", VB b3);
        ("y", arr y); ("x", arr x); ("N", nat_ (len y)); ("M", nat_ (len x))])
    (arrb (ww s)).
Proof.
  intros cl k vx vy x' y' b1 b2 b3 x y Hc Hl H1 H2 H3. pose proof (t_neg_r s HW pw Hpw) as Nr.
  pose proof (negate_shape s HW) as Ns. pose proof mul_shape as Ms.
  unfold v_arrb in Hc.
  widths s HW; unfold TAIL64, TAIL32.
  all: one_stmt; rewrite Hc; (destruct (mul_overflowing_full x' y') as [[r o]| |] eqn:E;
    [apply Ms in E; binds; norm; nats | binds; reflexivity ..]);
    destruct b1; cbv beta iota delta [negb];
    repeat first [neg_call Nr Nr Nr Ns; nats | progress one_stmt; nats | common; nats]; eexists; reflexivity.
Qed.
Ltac tail_call Ht :=
  lazymatch goal with
  | |- context [@exec_blk ?cc ?p (wh _ _ ?k) ?cl (BCons (SLet (PT [PV "r"; PV "overflowed"]) ?t ?e) ?b)
                  (("y", ?vy) :: ("x", ?vx) :: (_, VB ?b1) :: (_, VB ?b2) :: (_, VB ?b3) :: (_, VA _ ?y) :: (_, VA _ ?x) :: _)] =>
    let m := model_head in
    lazymatch m with
    | mul_overflowing_full ?x' ?y' =>
      let H := fresh "Htail" in
      assert (H := Ht cl k vx vy x' y' b1 b2 b3 x y);
      match type of H with ?P -> _ =>
        let h := fresh in assert (h : P) by (repeat typed_args; match goal with H : context [run] |- _ => rewrite H by side end; reflexivity);
        specialize (H h); clear h end;
      specialize (H ltac:(side) ltac:(side) ltac:(side) ltac:(side));
      match type of H with yields ?M _ _ =>
        match goal with |- _ = bind ?X _ => change X with M end;
        unfold yields in H;
        destruct M as [[?r ?o]| |];
        [ destruct H as (?en1 & H); rewrite H; reflexivity | rewrite H; reflexivity .. ] end
    end
  end.
Lemma t_soverflowing_full : forall d x y, (1 <= len x)%nat -> (1 <= len y)%nat -> dg x -> dg y ->
  Z.of_nat (len x) < 2 ^ 31 -> Z.of_nat (len y) < 2 ^ 31 -> (2 * len x + 1 < fuel)%nat -> (len y < fuel)%nat ->
  call (S (S (S d))) (nm s "overflowing_i") [arr x; arr y] = v_arrb (ww s) (smul_overflowing_full x y).
Proof.
  intros d x y Hx1 Hy1 Hx Hy H1 H1' H2 H2'.
  pose proof (t_neg_x s HW pw Hpw) as Nx. pose proof (t_neg_y s HW pw Hpw) as Ny.
  pose proof (negate_shape s HW) as Ns. pose proof t_tail as Ht. unfold arrb in Ht.
  pose proof (t_overflowing_full s HW pw Hpw fuel) as Hc.
  widths s HW.
  all: unfold TAIL64, TAIL32 in Ht; enter; unfold v_arrb, smul_overflowing_full, limbs_negative; nats.
  all: repeat first [ neg_call Nx Ny Ny Ns; nats | neg_if; nats | tail_call Ht | progress one_stmt; nats | common; nats ].
Qed.

End A.
