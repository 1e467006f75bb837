(** * The text of src/math/mul.rs, signed *)

Require Import ZArith List Bool String Lia.
From Verif Require Import Prim Spec MText SrcText MRun MAdd MMul PText PTextMul.
Import ListNotations.
Local Open Scope string_scope.
Local Open Scope list_scope.
Local Open Scope Z_scope.

Section A.
Context {c : Cfg} (s : bool) (HW : W = ww s) (pw : Z) (Hpw : 32 <= pw) (fuel : nat).
Notation call d f := (run pw fuel d (MUL s) f []).
Notation arr l := (VA (IU (ww s)) l).
Notation int z := (VI (IU (ww s)) z).
Notation wide z := (VI (IU (2 * ww s)) z).
Notation sint z := (VI (IS (ww s)) z).
Notation swide z := (VI (IS (2 * ww s)) z).
Notation nat_ n := (VI IX (Z.of_nat n)).
Notation len := List.length.
Notation dg l := (Forall (fun x => 0 <= x < 2 ^ ww s) l).

Definition lit (l : list Z) : val := VA IL l.
Definition neg_blk (x n t : string) : blk :=
  BCons (SLet (PV "result") None (ERep (ELit 0) (EVar n)))
  (BCons (SLet (PV "x0") None (EUn Bang (EIdx (EVar x) (ELit 0))))
  (BCons (SLet (PT [PV "v"; PV "c"]) None (EMeth (EVar "x0") "overflowing_add" (XCons (ELit 1) XNil)))
  (BCons (SSet "result" (ELit 0) (EVar "v"))
  (BCons (SLet (PV "index") None (ELit 1))
  (BCons (SWhile (EBin Lt_ (EVar "index") (EBin Minus (EVar n) (ELit 1)))
     (BCons (SLet (PV "xi") None (EUn Bang (EIdx (EVar x) (EVar "index"))))
     (BCons (SAssign (PT [PV "v"; PV "c"])
               (EMeth (EVar "xi") "overflowing_add" (XCons (ECast (EVar "c") (TName t)) XNil)))
     (BCons (SSet "result" (EVar "index") (EVar "v"))
     (BCons (SOp Plus "index" (ELit 1)) BNil)))))
  (BCons (SIf (EBin Gt_ (EVar n) (ELit 1))
     (BCons (SLet (PV "xn") None (EUn Bang (EIdx (EVar x) (EVar "index"))))
     (BCons (SAssign (PV "v") (EMeth (EVar "xn") "wrapping_add" (XCons (ECast (EVar "c") (TName t)) XNil)))
     (BCons (SSet "result" (EVar "index") (EVar "v")) BNil))) BNil)
  (BCons (SExp (EVar "result")) BNil))))))).
Definition R_neg (tl : env) (i : nat) (st : list Z * bool) (en : env) : Prop :=
  exists x0 j, en = ("index", VI IL (Z.of_nat i)) :: ("c", VB (snd st)) :: ("v", int j) :: ("x0", int x0)
                :: ("result", VA IL (fst st)) :: tl.
Ltac negation s HW tl :=
  set (R := R_neg tl); unfold R_neg in R;
  widths s HW; (unfold neg_blk, negate, nm; cbn [String.append]; sx; the_loop R O;
  [ intros ?k ?i [?r ?cy] ?en ?Hi ?Hk (?x0 & ?j & ->); split;
    [ sx; truth | sx; apply agree_ok; do 2 eexists; reflexivity ]
  | intros ?k [?r ?cy] ?en (?x0 & ?j & ->); sx; truth
  | do 2 eexists; reflexivity
  | lia
  | done_loop ltac:(fun st HR => destruct st as [?r ?cy]; destruct HR as (?x0 & ?j & ->); sx; apply yields_ok) ]).
Lemma t_neg_x : forall cl k b1 b2 b3 y x, (1 <= len x)%nat -> Z.of_nat (len x) < 2 ^ 31 -> (len x < k)%nat ->
  yields (negate x)
    (exec_blk pw (wh pw cl k) cl (neg_blk "x" "M" (nm s "u"))
       [("should_be_negative", VB b1); ("y_is_negative", VB b2); ("x_is_negative", VB b3); ("y", arr y); ("x", arr x);
        ("N", nat_ (len y)); ("M", nat_ (len x))])
    lit.
Proof.
  intros.
  match goal with |- yields _ (exec_blk _ _ _ _ ?tl) _ => negation s HW tl end.
Qed.
Lemma t_neg_y : forall cl k b1 b2 b3 vx x y, (1 <= len y)%nat -> Z.of_nat (len y) < 2 ^ 31 -> (len y < k)%nat ->
  yields (negate y)
    (exec_blk pw (wh pw cl k) cl (neg_blk "y" "N" (nm s "u"))
       [("x", vx); ("should_be_negative", VB b1); ("y_is_negative", VB b2); ("x_is_negative", VB b3); ("y", arr y); ("x", arr x);
        ("N", nat_ (len y)); ("M", nat_ (len x))])
    lit.
Proof.
  intros.
  match goal with |- yields _ (exec_blk _ _ _ _ ?tl) _ => negation s HW tl end.
Qed.
Lemma t_neg_r : forall cl k b0 b00 b000 z r vx vy b1 b2 b3 x y, len r = len x ->
  (1 <= len r)%nat -> Z.of_nat (len r) < 2 ^ 31 -> (len r < k)%nat ->
  yields (negate r)
    (exec_blk pw (wh pw cl k) cl (neg_blk "r" "M" (nm s "u"))
       [("is_min", VB b0); ("r_is_negative", VB b00); ("msl", sint z); ("overflowed", VB b000); ("r", arr r);
        ("y", vy); ("x", vx); ("should_be_negative", VB b1); ("y_is_negative", VB b2); ("x_is_negative", VB b3);
        ("y", arr y); ("x", arr x); ("N", nat_ (len y)); ("M", nat_ (len x))])
    lit.
Proof.
  intros cl k b0 b00 b000 z r vx vy b1 b2 b3 x y E. rewrite <- E. intros.
  match goal with |- yields _ (exec_blk _ _ _ _ ?tl) _ => negation s HW tl end.
Qed.

(** what the model's results look like *)
Lemma for_m_inv : forall {A} (P : A -> Prop) (f : nat -> A -> res A) k i st st',
  (forall j st st', P st -> f j st = Ok st' -> P st') -> P st -> for_m k i f st = Ok st' -> P st'.
Proof.
  intros A P f k. induction k as [|k IH]; intros i st st' H HP; cbn [for_m]; [intros [=]; congruence|].
  destruct (f i st) as [st1| |] eqn:E; cbn [bind]; try discriminate. intro E'. eapply IH; [exact H| |exact E'].
  exact (H _ _ _ HP E).
Qed.
Lemma ovadd_dig : forall w a b v cy, 0 <= w -> p_overflowing_add w a b = (v, cy) -> 0 <= v < 2 ^ w.
Proof. intros w a b v cy Hw E. apply (f_equal fst) in E. cbn [fst p_overflowing_add] in E. rewrite <- E. now apply ucast_dig. Qed.
Lemma negate_shape : forall x r, negate x = Ok r -> dg r /\ len r = len x.
Proof.
  intros x r. unfold negate. assert (H0 : 0 <= ww s) by (destruct s; cbn; lia). rewrite !HW.
  destruct (get x 0); cbn [bind]; try discriminate.
  destruct (p_overflowing_add _ _ 1) as [v cy] eqn:Ev.
  assert (Hv : 0 <= v < 2 ^ ww s) by (eapply ovadd_dig; eassumption).
  destruct (set (repeat 0 (len x)) 0 v) as [r0| |] eqn:E0; cbn [bind]; try discriminate.
  match goal with |- bind ?m _ = _ -> _ => destruct m as [[r1 c1]| |] eqn:E1 end; cbn [bind]; try discriminate.
  assert (H : dg (fst (r1, c1)) /\ len (fst (r1, c1)) = len x).
  { revert E1. unfold for_range. apply (for_m_inv (fun st : list Z * bool => dg (fst st) /\ len (fst st) = len x)).
    - intros j [r2 c2] [r3 c3] [Hd Hl] E. cbn [fst] in *.
      destruct (get x j); cbn [bind] in E; try discriminate.
      match type of E with context [p_overflowing_add ?a ?b ?d] => destruct (p_overflowing_add a b d) as [v' cy'] eqn:Ev' end.
      assert (Hv' : 0 <= v' < 2 ^ ww s) by (eapply ovadd_dig; eassumption).
      destruct (set r2 j v') as [r4| |] eqn:E4; cbn [bind] in E; try discriminate. injection E as <- <-.
      split; [eapply set_dig; eassumption|]. apply set_len in E4. congruence.
    - cbn [fst]. pose proof (set_len _ _ _ _ E0) as L. rewrite repeat_length in L. split; [|exact L].
      eapply set_dig; [| |exact E0]; [apply zeros_dig; exact HW|exact Hv]. }
  cbn [fst] in H. destruct H as [Hd Hl]. destruct (1 <? len x)%nat.
  - destruct (get x (len x - 1)) as [xn| |]; cbn [bind]; try discriminate. intro E. pose proof (set_len _ _ _ _ E) as L.
    split; [|congruence]. eapply set_dig; [exact Hd| |exact E]. now apply ucast_dig.
  - intros [= <-]. auto.
Qed.
Ltac eat E :=
  repeat match type of E with
  | bind ?m _ = Ok _ => destruct m eqn:?; cbn [bind] in E; try discriminate E
  | (if ?b then _ else _) = Ok _ => destruct b
  | (let (_, _) := ?p in _) = Ok _ => destruct p
  end.
Lemma mul_shape : forall x y r o, mul_overflowing_full x y = Ok (r, o) -> len r = len x.
Proof.
  intros x y r o. unfold mul_overflowing_full. destruct (assert_ _); cbn [bind]; try discriminate.
  intro E. change (len (fst (r, o)) = len x). revert E. unfold for_range.
  apply (for_m_inv (fun st : list Z * bool => len (fst st) = len x)); [|apply repeat_length].
  intros i [r1 o1] [r2 o2] Hl E. cbn [fst] in *. destruct (get x i); cbn [bind] in E; try discriminate.
  match type of E with bind ?m _ = _ => destruct m as [[[[r3 c3] o3] b3]| |] eqn:E1 end; cbn [bind] in E; try discriminate.
  assert (H : len (fst (fst (fst (r3, c3, o3, b3)))) = len x).
  { revert E1. apply (for_m_inv (fun st : list Z * Z * bool * bool => len (fst (fst (fst st))) = len x)); [|exact Hl].
    intros j [[[r4 c4] o4] b4] [[[r5 c5] o5] b5] Hl4 E4. cbn [fst] in *.
    eat E4; inversion E4; subst; repeat match goal with H : set _ _ _ = Ok _ |- _ => apply set_len in H end; congruence. }
  cbn [fst] in H.
  eat E; inversion E; subst; repeat match goal with H : set _ _ _ = Ok _ |- _ => apply set_len in H end; congruence.
Qed.
End A.
