(** * Properties: programs built from the operations (C66, C67)

    C66: multi-word arithmetic written with [carrying_add], [borrowing_sub],
    [carrying_mul] and [widening_mul], the use their documentation names
    (shared/bigint.rs 11-17, 29-36, uint/ops.rs 270-316).  C67: expressions of
    any shape evaluated with the operations of the crate.  The client programs
    are defined here; they only call the model's operations. *)

Require Import ZArith List Bool Lia.
From Verif Require Import Prim Spec Facts MAdd MMul MShift MCore PCore PBits PWide MArith PArith PArith2 PPow PMisc PBits2 PRot PRet.
Import ListNotations.
Local Open Scope Z_scope.
Local Notation E64 := (@ofZ c256_64).
Local Notation E32 := (@ofZ c256_32).
Local Notation E384 := (@ofZ c384_64).
Local Notation E512 := (@ofZ c512_32).

(** ** C66: multi-word numbers *)

Section Chain.
Context {c : Cfg}.

(** The client's loops, least significant word first. *)
Fixpoint add_words (xs ys : list (list Z)) (carry : bool) : res (list (list Z) * bool) :=
  match xs, ys with
  | x :: xs, y :: ys =>
      let* (s, carry) := big_carrying_add false x y carry in
      let* (r, carry) := add_words xs ys carry in
      Ok (s :: r, carry)
  | _, _ => Ok ([], carry)
  end.
Fixpoint sub_words (xs ys : list (list Z)) (borrow : bool) : res (list (list Z) * bool) :=
  match xs, ys with
  | x :: xs, y :: ys =>
      let* (s, borrow) := big_borrowing_sub false x y borrow in
      let* (r, borrow) := sub_words xs ys borrow in
      Ok (s :: r, borrow)
  | _, _ => Ok ([], borrow)
  end.
(** words times one word plus a word; the last carry is the top word *)
Fixpoint mul_word (xs : list (list Z)) (y carry : list Z) : res (list (list Z)) :=
  match xs with
  | x :: xs =>
      let* (lo, hi) := carrying_mul x y carry in
      let* r := mul_word xs y hi in
      Ok (lo :: r)
  | [] => Ok [carry]
  end.
(** schoolbook product: [xs * (y + 2^BITS * ys)]; the rows are added with
    [add_words] *)
Fixpoint mul_words (xs ys : list (list Z)) : res (list (list Z)) :=
  match ys with
  | [] => let* z := from_u8 0 in Ok (map (fun _ => z) xs)
  | y :: ys =>
      let* z := from_u8 0 in
      let* row := mul_word xs y z in
      let* rest := mul_words xs ys in
      match row with
      | [] => Ok []
      | lo :: row =>
          let* (s, carry) := add_words (row ++ map (fun _ => z) ys) rest false in
          Ok (lo :: s)
      end
  end.

(** The number a list of words stands for. *)
Fixpoint words_val (xs : list (list Z)) : Z :=
  match xs with [] => 0 | x :: xs => uval x + 2 ^ BITS * words_val xs end.
Definition words_ok (xs : list (list Z)) : Prop := Forall wf xs.
Definition span (n : nat) : Z := 2 ^ (BITS * Z.of_nat n).

End Chain.

Section P.
Context {c : Cfg}.
Hypothesis HV : Valid.
Let PB : 0 < 2 ^ BITS := pB HV.

Lemma span_S : forall n, span (S n) = 2 ^ BITS * span n.
Proof. intros n. unfold span. pose proof (BITS_pos HV). rewrite Nat2Z.inj_succ, Z.mul_succ_r, Z.pow_add_r by nia. lia. Qed.
Lemma span_0 : span 0 = 1.
Proof. unfold span. rewrite Z.mul_0_r. reflexivity. Qed.
Lemma span_pos : forall n, 0 < span n.
Proof. intros. unfold span. pose proof (BITS_pos HV). apply Z.pow_pos_nonneg; nia. Qed.
Lemma words_range : forall xs, words_ok xs -> 0 <= words_val xs < span (length xs).
Proof.
  induction 1 as [|x xs Hx _ IH]; cbn [words_val length].
  - rewrite span_0. lia.
  - rewrite span_S. pose proof (uval_range HV x Hx) as R. unfold fits_u in R. nia.
Qed.
Lemma words_app : forall xs ys, words_val (xs ++ ys) = words_val xs + span (length xs) * words_val ys.
Proof. induction xs as [|x xs IH]; intros ys; cbn [words_val app length]; [rewrite span_0; lia|]. rewrite IH, span_S. ring. Qed.
Lemma words_zeros : forall (A : Type) (l : list A) z, uval z = 0 -> words_val (map (fun _ => z) l) = 0.
Proof. induction l as [|a l IH]; intros z Hz; cbn [map words_val]; [reflexivity|]. rewrite Hz, IH by auto. lia. Qed.
Lemma words_ok_zeros : forall (A : Type) (l : list A) z, wf z -> words_ok (map (fun _ => z) l).
Proof. intros A l z Hz. apply Forall_forall. intros x Hx. apply in_map_iff in Hx. destruct Hx as (_ & <- & _). auto. Qed.

Lemma carry_step : forall x y (cy : bool), wf x -> wf y -> exists s co, big_carrying_add false x y cy = Ok (s, co) /\ wf s /\
  uval s + 2 ^ BITS * b2z co = uval x + uval y + b2z cy.
Proof.
  intros x y cy Hx Hy. rewrite (big_carrying_add_ok HV) by auto. cbn [val].
  eexists _, _. split; [reflexivity|]. split; [apply (wf_ofZ HV)|]. rewrite (uval_ofZ HV).
  rewrite (carry_flag_u HV) by (apply (fits_val HV false); auto).
  pose proof (uval_range HV x Hx) as Rx. pose proof (uval_range HV y Hy) as Ry. unfold fits_u in *.
  set (v := uval x + uval y + b2z cy). assert (0 <= v < 2 * 2 ^ BITS) by (unfold v; destruct cy; cbn [b2z]; lia).
  destruct (fitsb_reflect false v) as [F|F]; cbn [negb b2z].
  - cbn [fits] in F. unfold fits_u in F. rewrite Z.mod_small by lia. lia.
  - cbn [fits] in F. unfold fits_u in F. replace v with (v - 2 ^ BITS + 1 * 2 ^ BITS) at 1 by lia. rewrite Z.mod_add by lia.
    rewrite Z.mod_small by lia. lia.
Qed.
Lemma borrow_step : forall x y (cy : bool), wf x -> wf y -> exists s co, big_borrowing_sub false x y cy = Ok (s, co) /\ wf s /\
  uval s - 2 ^ BITS * b2z co = uval x - uval y - b2z cy.
Proof.
  intros x y cy Hx Hy. rewrite (big_borrowing_sub_ok HV) by auto. cbn [val].
  eexists _, _. split; [reflexivity|]. split; [apply (wf_ofZ HV)|]. rewrite (uval_ofZ HV).
  rewrite (borrow_flag_u HV) by (apply (fits_val HV false); auto).
  pose proof (uval_range HV x Hx) as Rx. pose proof (uval_range HV y Hy) as Ry. unfold fits_u in *.
  set (v := uval x - uval y - b2z cy). assert (- 2 ^ BITS <= v < 2 ^ BITS) by (unfold v; destruct cy; cbn [b2z]; lia).
  destruct (fitsb_reflect false v) as [F|F]; cbn [negb b2z].
  - cbn [fits] in F. unfold fits_u in F. rewrite Z.mod_small by lia. lia.
  - cbn [fits] in F. unfold fits_u in F. replace v with (v + 2 ^ BITS + (-1) * 2 ^ BITS) at 1 by lia. rewrite Z.mod_add by lia.
    rewrite Z.mod_small by lia. lia.
Qed.
Lemma mul_step : forall x y z, wf x -> wf y -> wf z -> exists lo hi, carrying_mul x y z = Ok (lo, hi) /\ wf lo /\ wf hi /\
  uval lo + 2 ^ BITS * uval hi = uval x * uval y + uval z.
Proof.
  intros x y z Hx Hy Hz. rewrite (carrying_mul_ok HV) by auto. eexists _, _. split; [reflexivity|].
  do 2 (split; [apply (wf_ofZ HV)|]). rewrite !(uval_ofZ HV). pose proof (uval_range HV x Hx). pose proof (uval_range HV y Hy).
  pose proof (uval_range HV z Hz). unfold fits_u in *.
  rewrite (Z.mod_small (_ / _)); [pose proof (Z.div_mod (uval x * uval y + uval z) (2 ^ BITS)); lia|].
  split; [apply Z.div_pos; nia|apply Z.div_lt_upper_bound; nia].
Qed.

Lemma add_words_ok : forall xs ys cy, words_ok xs -> words_ok ys -> length xs = length ys ->
  exists rs co, add_words xs ys cy = Ok (rs, co) /\ words_ok rs /\ length rs = length xs /\
    words_val rs + span (length xs) * b2z co = words_val xs + words_val ys + b2z cy.
Proof.
  induction xs as [|x xs IH]; intros [|y ys] cy HX HY HL; try discriminate; cbn [add_words].
  - exists [], cy. split; [reflexivity|]. split; [constructor|]. split; [reflexivity|]. cbn [words_val length]. rewrite span_0. lia.
  - inversion HX as [|? ? Hx HX']; inversion HY as [|? ? Hy HY']; subst.
    destruct (carry_step x y cy Hx Hy) as (s & co & E & Hs & V). rewrite E. cbn [bind].
    destruct (IH ys co HX' HY' ltac:(cbn in HL; lia)) as (rs & co' & E' & Hr & L & V'). rewrite E'. cbn [bind].
    exists (s :: rs), co'. split; [reflexivity|]. split; [constructor; auto|]. split; [cbn; lia|].
    cbn [words_val length]. rewrite span_S. nia.
Qed.
Lemma sub_words_ok : forall xs ys cy, words_ok xs -> words_ok ys -> length xs = length ys ->
  exists rs co, sub_words xs ys cy = Ok (rs, co) /\ words_ok rs /\ length rs = length xs /\
    words_val rs - span (length xs) * b2z co = words_val xs - words_val ys - b2z cy.
Proof.
  induction xs as [|x xs IH]; intros [|y ys] cy HX HY HL; try discriminate; cbn [sub_words].
  - exists [], cy. split; [reflexivity|]. split; [constructor|]. split; [reflexivity|]. cbn [words_val length]. rewrite span_0. lia.
  - inversion HX as [|? ? Hx HX']; inversion HY as [|? ? Hy HY']; subst.
    destruct (borrow_step x y cy Hx Hy) as (s & co & E & Hs & V). rewrite E. cbn [bind].
    destruct (IH ys co HX' HY' ltac:(cbn in HL; lia)) as (rs & co' & E' & Hr & L & V'). rewrite E'. cbn [bind].
    exists (s :: rs), co'. split; [reflexivity|]. split; [constructor; auto|]. split; [cbn; lia|].
    cbn [words_val length]. rewrite span_S. nia.
Qed.
Lemma mul_word_ok : forall xs y cy, words_ok xs -> wf y -> wf cy ->
  exists rs, mul_word xs y cy = Ok rs /\ words_ok rs /\ length rs = S (length xs) /\
    words_val rs = words_val xs * uval y + uval cy.
Proof.
  induction xs as [|x xs IH]; intros y cy HX Hy Hc; cbn [mul_word].
  - exists [cy]. split; [reflexivity|]. split; [constructor; auto; constructor|]. split; [reflexivity|]. cbn [words_val]. lia.
  - inversion HX as [|? ? Hx HX']; subst. destruct (mul_step x y cy Hx Hy Hc) as (lo & hi & E & Hlo & Hhi & V). rewrite E. cbn [bind].
    destruct (IH y hi HX' Hy Hhi) as (rs & E' & Hr & L & V'). rewrite E'. cbn [bind].
    exists (lo :: rs). split; [reflexivity|]. split; [constructor; auto|]. split; [cbn; lia|]. cbn [words_val]. nia.
Qed.
Lemma mul_words_ok : forall xs ys, words_ok xs -> words_ok ys ->
  exists rs, mul_words xs ys = Ok rs /\ words_ok rs /\ length rs = (length xs + length ys)%nat /\
    words_val rs = words_val xs * words_val ys.
Proof.
  intros xs ys HX. assert (F : fits_u 8 0) by (unfold fits_u; lia).
  assert (Z0 : wf (ofZ 0)) by apply (wf_ofZ HV).
  assert (V0 : uval (ofZ 0) = 0) by (rewrite (uval_ofZ HV); apply Z.mod_0_l; lia).
  induction 1 as [|y ys Hy HY IH]; cbn [mul_words].
  - rewrite (from_u8_ok HV) by auto. cbn [bind]. eexists. split; [reflexivity|]. split; [apply words_ok_zeros; auto|].
    split; [rewrite map_length; cbn; lia|]. rewrite words_zeros by auto. cbn [words_val]. lia.
  - rewrite (from_u8_ok HV) by auto. cbn [bind]. destruct (mul_word_ok xs y (ofZ 0) HX Hy Z0) as (row & E & HR & L & V). rewrite E. cbn [bind].
    destruct IH as (rest & E' & HR' & L' & V'). rewrite E'. cbn [bind].
    destruct row as [|lo row]; [discriminate|]. inversion HR as [|? ? Hlo HR2]; subst. cbn [length] in L. assert (L2 : length row = length xs) by lia.
    destruct (add_words_ok (row ++ map (fun _ => ofZ 0) ys) rest false) as (s & co & ES & HS & LS & VS).
    { apply Forall_app. split; [auto|apply words_ok_zeros; auto]. }
    { auto. }
    { rewrite app_length, map_length. lia. }
    rewrite ES. cbn [bind]. exists (lo :: s). split; [reflexivity|]. split; [constructor; auto|].
    rewrite app_length, map_length in LS, VS. rewrite words_app, words_zeros in VS by auto. cbn [b2z] in VS.
    split; [cbn [length]; lia|]. cbn [words_val] in V |- *. rewrite V0 in V.
    (* the sum fits, so the last carry is clear *)
    pose proof (words_range xs HX) as RX. pose proof (words_range (y :: ys) ltac:(constructor; auto)) as RY. cbn [words_val length] in RY.
    pose proof (words_range s HS) as RS. pose proof (uval_range HV lo Hlo) as RL. unfold fits_u in RL.
    assert (SP : span (length xs + S (length ys)) = span (length xs) * span (S (length ys))).
    { unfold span. pose proof (BITS_pos HV). rewrite <- Z.pow_add_r by nia. f_equal. nia. }
    assert (TOT : uval lo + 2 ^ BITS * (words_val row + words_val rest) = words_val xs * (uval y + 2 ^ BITS * words_val ys)) by nia.
    assert (BND : words_val xs * (uval y + 2 ^ BITS * words_val ys) < 2 ^ BITS * span (length xs + length ys)).
    { rewrite <- span_S, plus_n_Sm, SP. nia. }
    replace (length row + length ys)%nat with (length xs + length ys)%nat in VS by lia.
    pose proof (span_pos (length xs + length ys)) as SPP.
    destruct co; cbn [b2z] in VS; [exfalso; nia|]. nia.
Qed.
End P.

(** A chain of [carrying_add] adds numbers of any length. *)
Theorem C66_add : forall (c : Cfg) xs ys (cy : bool), Valid -> words_ok xs -> words_ok ys -> length xs = length ys ->
  exists rs co, add_words xs ys cy = Ok (rs, co) /\ words_ok rs /\ length rs = length xs /\
    words_val rs = (words_val xs + words_val ys + (if cy then 1 else 0)) mod span (length xs) /\
    (co = true <-> span (length xs) <= words_val xs + words_val ys + (if cy then 1 else 0)).
Proof.
  intros c xs ys cy HV HX HY HL. destruct (add_words_ok HV xs ys cy HX HY HL) as (rs & co & E & HR & L & V).
  exists rs, co. split; [exact E|]. split; [exact HR|]. split; [exact L|]. pose proof (words_range HV rs HR) as RR. rewrite L in RR.
  replace (b2z cy) with (if cy then 1 else 0) in V by (destruct cy; reflexivity). rewrite <- V. destruct co; cbn [b2z].
  - rewrite Z.mul_comm, Z.mod_add by lia. rewrite Z.mod_small by lia. split; [reflexivity|]. split; [lia|auto].
  - rewrite Z.mul_0_r, Z.add_0_r. rewrite Z.mod_small by lia. split; [reflexivity|]. split; [discriminate|lia].
Qed.
(** A chain of [borrowing_sub] subtracts, and its last borrow compares. *)
Theorem C66_sub : forall (c : Cfg) xs ys (cy : bool), Valid -> words_ok xs -> words_ok ys -> length xs = length ys ->
  exists rs co, sub_words xs ys cy = Ok (rs, co) /\ words_ok rs /\ length rs = length xs /\
    words_val rs = (words_val xs - words_val ys - (if cy then 1 else 0)) mod span (length xs) /\
    (co = true <-> words_val xs < words_val ys + (if cy then 1 else 0)).
Proof.
  intros c xs ys cy HV HX HY HL. destruct (sub_words_ok HV xs ys cy HX HY HL) as (rs & co & E & HR & L & V).
  exists rs, co. split; [exact E|]. split; [exact HR|]. split; [exact L|]. pose proof (words_range HV rs HR) as RR. rewrite L in RR.
  replace (b2z cy) with (if cy then 1 else 0) in V by (destruct cy; reflexivity). rewrite <- V. destruct co; cbn [b2z] in *.
  - replace (words_val rs - span (length xs) * 1) with (words_val rs + (-1) * span (length xs)) by ring.
    rewrite Z.mod_add by lia. rewrite Z.mod_small by lia. split; [reflexivity|]. split; [lia|auto].
  - rewrite Z.mul_0_r, Z.sub_0_r. rewrite Z.mod_small by lia. split; [reflexivity|]. split; [discriminate|lia].
Qed.
(** A chain of [carrying_mul] multiplies by one word. *)
Theorem C66_mul_word : forall (c : Cfg) xs y cy, Valid -> words_ok xs -> wf y -> wf cy ->
  exists rs, mul_word xs y cy = Ok rs /\ words_ok rs /\ length rs = S (length xs) /\
    words_val rs = words_val xs * uval y + uval cy.
Proof. intros c xs y cy HV. apply (mul_word_ok HV). Qed.
(** The schoolbook product of numbers of any two lengths is exact. *)
Theorem C66_mul : forall (c : Cfg) xs ys, Valid -> words_ok xs -> words_ok ys ->
  exists rs, mul_words xs ys = Ok rs /\ words_ok rs /\ length rs = (length xs + length ys)%nat /\
    words_val rs = words_val xs * words_val ys.
Proof. intros c xs ys HV. apply (mul_words_ok HV). Qed.
(** Adding and then subtracting gives the words back. *)
Theorem C66_sub_add : forall (c : Cfg) xs ys (cy : bool), Valid -> words_ok xs -> words_ok ys -> length xs = length ys ->
  exists rs co, add_words xs ys cy = Ok (rs, co) /\ sub_words rs ys cy = Ok (xs, co).
Proof.
  intros c xs ys cy HV HX HY HL. destruct (add_words_ok HV xs ys cy HX HY HL) as (rs & co & E & HR & L & V).
  exists rs, co. split; [exact E|]. destruct (sub_words_ok HV rs ys cy HR HY ltac:(lia)) as (xs' & co' & E' & HX' & L' & V').
  rewrite E'. rewrite L in *. pose proof (words_range HV xs HX) as RX. pose proof (words_range HV xs' HX') as RX'. rewrite L' in RX'.
  assert (EC : co' = co) by (destruct co, co'; cbn [b2z] in *; auto; exfalso; lia). subst co'.
  assert (EV : words_val xs' = words_val xs) by lia. f_equal. f_equal.
  clear - HX HX' L' EV HV. revert xs' HX' L' EV. induction HX as [|x xs Hx HX IH]; intros [|x' xs'] HX' L' EV; try discriminate; [reflexivity|].
  inversion HX' as [|? ? Hx' HX2]; subst. cbn [words_val] in EV. pose proof (uval_range HV x Hx) as R. pose proof (uval_range HV x' Hx') as R'. unfold fits_u in *.
  assert (words_val xs' = words_val xs) by nia. assert (EU : uval x' = uval x) by lia. f_equal.
  - rewrite <- (ofZ_uval HV x' Hx'), EU. apply (ofZ_uval HV x Hx).
  - apply IH; auto.
Qed.

Example C66_ex1 : @add_words c256_64 [E64 (-1); E64 (-1)] [E64 1; E64 0] false = Ok ([E64 0; E64 0], true)
  /\ @sub_words c256_32 [E32 0; E32 5] [E32 1; E32 0] false = Ok ([E32 (-1); E32 4], false).
Proof. vm_compute. auto. Qed.
Example C66_ex2 : @mul_words c256_64 [E64 (-1); E64 (-1)] [E64 (-1)] = Ok [E64 1; E64 (-1); E64 (-2)]
  /\ @mul_word c512_32 [E512 (2 ^ 511); E512 3] (E512 2) (E512 7) = Ok [E512 7; E512 7; E512 0].
Proof. vm_compute. auto. Qed.

(** ** C67: expressions *)

(** Leaves are program variables. *)
Inductive expr : Type :=
  | EVar (i : nat)
  | EAdd (a b : expr) | ESub (a b : expr) | EMul (a b : expr) | ENeg (a : expr)
  | ENot (a : expr) | EAnd (a b : expr) | EOr (a b : expr) | EXor (a b : expr)
  | EShl (a : expr) (r : Z) | EShr (a : expr) (r : Z).

Section Eval.
Context {c : Cfg}.

(** With the wrapping methods. *)
Fixpoint weval (sg : bool) (env : nat -> list Z) (e : expr) : res (list Z) :=
  match e with
  | EVar i => Ok (env i)
  | EAdd a b => let* x := weval sg env a in let* y := weval sg env b in wrapping_add sg x y
  | ESub a b => let* x := weval sg env a in let* y := weval sg env b in wrapping_sub sg x y
  | EMul a b => let* x := weval sg env a in let* y := weval sg env b in wrapping_mul sg x y
  | ENeg a => let* x := weval sg env a in if sg then s_wrapping_neg x else u_wrapping_neg x
  | ENot a => let* x := weval sg env a in not_const x
  | EAnd a b => let* x := weval sg env a in let* y := weval sg env b in bitand_const x y
  | EOr a b => let* x := weval sg env a in let* y := weval sg env b in bitor_const x y
  | EXor a b => let* x := weval sg env a in let* y := weval sg env b in bitxor_const x y
  | EShl a r => let* x := weval sg env a in wrapping_shl x r
  | EShr a r => let* x := weval sg env a in wrapping_shr sg x r
  end.
(** With the operators.  Unsigned types have no unary minus; [ENeg] is then
    written [0 - a]. *)
Fixpoint oeval (sg : bool) (env : nat -> list Z) (e : expr) : res (list Z) :=
  match e with
  | EVar i => Ok (env i)
  | EAdd a b => let* x := oeval sg env a in let* y := oeval sg env b in op_add sg x y
  | ESub a b => let* x := oeval sg env a in let* y := oeval sg env b in op_sub sg x y
  | EMul a b => let* x := oeval sg env a in let* y := oeval sg env b in op_mul sg x y
  | ENeg a => let* x := oeval sg env a in
      if sg then op_neg x else let* z := from_u8 0 in op_sub false z x
  | ENot a => let* x := oeval sg env a in not_const x
  | EAnd a b => let* x := oeval sg env a in let* y := oeval sg env b in bitand_const x y
  | EOr a b => let* x := oeval sg env a in let* y := oeval sg env b in bitor_const x y
  | EXor a b => let* x := oeval sg env a in let* y := oeval sg env b in bitxor_const x y
  | EShl a r => let* x := oeval sg env a in op_shl false 32 x r
  | EShr a r => let* x := oeval sg env a in op_shr sg false 32 x r
  end.
(** With the checked methods, [None] propagating as with [?]. *)
Definition obind {A B} (m : res (option A)) (k : A -> res (option B)) : res (option B) :=
  let* o := m in match o with Some a => k a | None => Ok None end.
Fixpoint ceval (sg : bool) (env : nat -> list Z) (e : expr) : res (option (list Z)) :=
  match e with
  | EVar i => Ok (Some (env i))
  | EAdd a b => obind (ceval sg env a) (fun x => obind (ceval sg env b) (fun y => checked_add sg x y))
  | ESub a b => obind (ceval sg env a) (fun x => obind (ceval sg env b) (fun y => checked_sub sg x y))
  | EMul a b => obind (ceval sg env a) (fun x => obind (ceval sg env b) (fun y => checked_mul sg x y))
  | ENeg a => obind (ceval sg env a) (fun x => if sg then s_checked_neg x else u_checked_neg x)
  | ENot a => obind (ceval sg env a) (fun x => let* z := not_const x in Ok (Some z))
  | EAnd a b => obind (ceval sg env a) (fun x => obind (ceval sg env b) (fun y => let* z := bitand_const x y in Ok (Some z)))
  | EOr a b => obind (ceval sg env a) (fun x => obind (ceval sg env b) (fun y => let* z := bitor_const x y in Ok (Some z)))
  | EXor a b => obind (ceval sg env a) (fun x => obind (ceval sg env b) (fun y => let* z := bitxor_const x y in Ok (Some z)))
  | EShl a r => obind (ceval sg env a) (fun x => checked_shl x r)
  | EShr a r => obind (ceval sg env a) (fun x => checked_shr sg x r)
  end.

(** The same expression over the unbounded integers. *)
Fixpoint zeval (env : nat -> Z) (e : expr) : Z :=
  match e with
  | EVar i => env i
  | EAdd a b => zeval env a + zeval env b
  | ESub a b => zeval env a - zeval env b
  | EMul a b => zeval env a * zeval env b
  | ENeg a => - zeval env a
  | ENot a => Z.lnot (zeval env a)
  | EAnd a b => Z.land (zeval env a) (zeval env b)
  | EOr a b => Z.lor (zeval env a) (zeval env b)
  | EXor a b => Z.lxor (zeval env a) (zeval env b)
  | EShl a r => zeval env a * 2 ^ r
  | EShr a r => zeval env a / 2 ^ r
  end.
(** Shift amounts in range; no right shift, which reads the upper bits. *)
Fixpoint amounts_ok (e : expr) : Prop :=
  match e with
  | EVar _ => True
  | EAdd a b | ESub a b | EMul a b | EAnd a b | EOr a b | EXor a b => amounts_ok a /\ amounts_ok b
  | ENeg a | ENot a => amounts_ok a
  | EShl a r | EShr a r => 0 <= r < BITS /\ amounts_ok a
  end.
Fixpoint no_shr (e : expr) : Prop :=
  match e with
  | EVar _ => True
  | EAdd a b | ESub a b | EMul a b | EAnd a b | EOr a b | EXor a b => no_shr a /\ no_shr b
  | ENeg a | ENot a | EShl a _ => no_shr a
  | EShr _ _ => False
  end.
Fixpoint no_mul (e : expr) : Prop :=
  match e with
  | EVar _ => True
  | EMul _ _ => False
  | EAdd a b | ESub a b | EAnd a b | EOr a b | EXor a b => no_mul a /\ no_mul b
  | ENeg a | ENot a | EShl a _ | EShr a _ => no_mul a
  end.
(** Over the integers, stopping at the first number that is not
    representable.  Complement and left shift keep [BITS] bits. *)
Definition keep (sg : bool) (v : Z) : option Z :=
  if sg then if (- 2 ^ (BITS - 1) <=? v) && (v <? 2 ^ (BITS - 1)) then Some v else None
  else if (0 <=? v) && (v <? 2 ^ BITS) then Some v else None.
Definition trunc (sg : bool) (v : Z) : Z := if sg then swrap BITS v else v mod 2 ^ BITS.
Definition both (f : Z -> Z -> option Z) (a b : option Z) : option Z :=
  match a, b with Some a, Some b => f a b | _, _ => None end.
Definition one (f : Z -> option Z) (a : option Z) : option Z := match a with Some a => f a | None => None end.
Fixpoint xeval (sg : bool) (env : nat -> Z) (e : expr) : option Z :=
  match e with
  | EVar i => Some (env i)
  | EAdd a b => both (fun x y => keep sg (x + y)) (xeval sg env a) (xeval sg env b)
  | ESub a b => both (fun x y => keep sg (x - y)) (xeval sg env a) (xeval sg env b)
  | EMul a b => both (fun x y => keep sg (x * y)) (xeval sg env a) (xeval sg env b)
  | ENeg a => one (fun x => keep sg (- x)) (xeval sg env a)
  | ENot a => one (fun x => Some (trunc sg (Z.lnot x))) (xeval sg env a)
  | EAnd a b => both (fun x y => Some (Z.land x y)) (xeval sg env a) (xeval sg env b)
  | EOr a b => both (fun x y => Some (Z.lor x y)) (xeval sg env a) (xeval sg env b)
  | EXor a b => both (fun x y => Some (Z.lxor x y)) (xeval sg env a) (xeval sg env b)
  | EShl a r => one (fun x => Some (trunc sg (x * 2 ^ r))) (xeval sg env a)
  | EShr a r => one (fun x => Some (x / 2 ^ r)) (xeval sg env a)
  end.
Definition enum (sg : bool) (env : nat -> list Z) (i : nat) : Z := if sg then sval (env i) else uval (env i).

End Eval.

Section X.
Context {c : Cfg}.
Hypothesis HV : Valid.
Let PB : 0 < 2 ^ BITS := pB HV.

Lemma ofZ_mod_eq : forall v v', ofZ v = ofZ v' -> v mod 2 ^ BITS = v' mod 2 ^ BITS.
Proof. intros v v' E. rewrite <- !(uval_ofZ HV), E. reflexivity. Qed.
Lemma val_mod : forall sg v, val sg (ofZ v) mod 2 ^ BITS = v mod 2 ^ BITS.
Proof. intros sg v. rewrite (val_ofZ HV). destruct (wrapz_cong HV sg v) as (k & ->). apply Z.mod_add. lia. Qed.

Lemma weval_ok : forall sg env e, (forall i, wf (env i)) -> amounts_ok e -> no_shr e ->
  weval sg env e = Ok (ofZ (zeval (fun i => val sg (env i)) e)).
Proof.
  intros sg env e HE. pose proof (BITS_pos HV) as HB.
  induction e; cbn [amounts_ok no_shr weval zeval]; intros HA HN;
    repeat match goal with H : _ /\ _ |- _ => destruct H end;
    repeat match goal with IH : amounts_ok ?a -> no_shr ?a -> _, H1 : amounts_ok ?a, H2 : no_shr ?a |- _ => rewrite (IH H1 H2); clear IH; cbn [bind] end.
  - rewrite (ofZ_val HV) by auto. reflexivity.
  - rewrite (wrapping_add_ok HV) by apply (wf_ofZ HV). f_equal. apply (ofZ_eq_mod HV). rewrite Z.add_mod, !val_mod, <- Z.add_mod by lia. reflexivity.
  - rewrite (wrapping_sub_ok HV) by apply (wf_ofZ HV). f_equal. apply (ofZ_eq_mod HV). rewrite Zminus_mod, !val_mod, <- Zminus_mod. reflexivity.
  - rewrite (wrapping_mul_ok HV) by apply (wf_ofZ HV). f_equal. apply (ofZ_eq_mod HV). rewrite Z.mul_mod, !val_mod, <- Z.mul_mod by lia. reflexivity.
  - set (v := zeval _ e). transitivity (Ok (ofZ (- val sg (ofZ v)))).
    + destruct sg; [apply (s_wrapping_neg_ok HV)|apply (u_wrapping_neg_ok HV)]; apply (wf_ofZ HV).
    + f_equal. apply (ofZ_eq_mod HV). rewrite <- !Z.sub_0_l, Zminus_mod, !val_mod, <- Zminus_mod. reflexivity.
  - rewrite (not_const_ok HV) by apply (wf_ofZ HV). f_equal. apply (ofZ_eq_mod HV). rewrite (uval_ofZ HV), Zminus_mod_idemp_r. f_equal. unfold Z.lnot. lia.
  - rewrite (bitand_ok HV) by apply (wf_ofZ HV). f_equal. apply (ofZ_eq_mod HV). rewrite !(uval_ofZ HV), land_mod by lia. apply Z.mod_mod. lia.
  - rewrite (bitor_ok HV) by apply (wf_ofZ HV). f_equal. apply (ofZ_eq_mod HV). rewrite !(uval_ofZ HV), lor_mod by lia. apply Z.mod_mod. lia.
  - rewrite (bitxor_ok HV) by apply (wf_ofZ HV). f_equal. apply (ofZ_eq_mod HV). rewrite !(uval_ofZ HV), lxor_mod by lia. apply Z.mod_mod. lia.
  - rewrite (wrapping_shl_ok HV) by apply (wf_ofZ HV). rewrite Z.mod_small by lia. f_equal. apply (ofZ_eq_mod HV). rewrite (uval_ofZ HV), Z.mul_mod_idemp_l by lia. reflexivity.
  - destruct HN.
Qed.
Lemma zeval_mod : forall e env env', amounts_ok e -> no_shr e -> (forall i, env i mod 2 ^ BITS = env' i mod 2 ^ BITS) ->
  zeval env e mod 2 ^ BITS = zeval env' e mod 2 ^ BITS.
Proof.
  intros e env env'. pose proof (BITS_pos HV) as HB. intros HA HN HE. revert HA HN.
  induction e; cbn [amounts_ok no_shr zeval]; intros HA HN;
    repeat match goal with H : _ /\ _ |- _ => destruct H end;
    repeat match goal with IH : amounts_ok ?a -> no_shr ?a -> _, H1 : amounts_ok ?a, H2 : no_shr ?a |- _ => specialize (IH H1 H2) end; auto.
  - rewrite Z.add_mod, IHe1, IHe2, <- Z.add_mod by lia. reflexivity.
  - rewrite Zminus_mod, IHe1, IHe2, <- Zminus_mod. reflexivity.
  - rewrite Z.mul_mod, IHe1, IHe2, <- Z.mul_mod by lia. reflexivity.
  - rewrite <- !Z.sub_0_l, Zminus_mod, IHe, <- Zminus_mod. reflexivity.
  - unfold Z.lnot, Z.pred. rewrite <- !Z.sub_0_l.
    rewrite <- (Z.add_mod_idemp_l (0 - zeval env e)), Zminus_mod, IHe, <- Zminus_mod, Z.add_mod_idemp_l by lia. reflexivity.
  - rewrite <- !land_mod by lia. rewrite IHe1, IHe2. reflexivity.
  - rewrite <- !lor_mod by lia. rewrite IHe1, IHe2. reflexivity.
  - rewrite <- !lxor_mod by lia. rewrite IHe1, IHe2. reflexivity.
  - rewrite <- (Z.mul_mod_idemp_l (zeval env e)), IHe, Z.mul_mod_idemp_l by lia. reflexivity.
  - destruct HN.
Qed.

Lemma keep_eq : forall sg v, keep sg v = if fitsb sg v then Some v else None.
Proof.
  intros sg v. unfold keep. destruct sg.
  - destruct (fitsb_reflect true v) as [F|F]; cbn in F; unfold fits_s in F;
      destruct (Z.leb_spec (- 2 ^ (BITS - 1)) v), (Z.ltb_spec v (2 ^ (BITS - 1))); cbn [andb]; auto; exfalso; lia.
  - destruct (fitsb_reflect false v) as [F|F]; cbn in F; unfold fits_u in F;
      destruct (Z.leb_spec 0 v), (Z.ltb_spec v (2 ^ BITS)); cbn [andb]; auto; exfalso; lia.
Qed.
Lemma fits_trunc : forall sg v, fits sg (trunc sg v).
Proof. intros sg v. change (trunc sg v) with (wrapz sg v). rewrite <- (val_ofZ HV). apply (fits_val HV), (wf_ofZ HV). Qed.
Lemma ofZ_trunc : forall sg v, ofZ (trunc sg v) = ofZ v.
Proof. intros sg v. change (trunc sg v) with (wrapz sg v). apply (ofZ_eq_mod HV). destruct (wrapz_cong HV sg v) as (k & ->). apply Z.mod_add. lia. Qed.
Lemma fits_bits : forall (sg : bool) a b, fits sg a -> fits sg b -> fits sg (Z.land a b) /\ fits sg (Z.lor a b) /\ fits sg (Z.lxor a b).
Proof.
  intros sg a b Ha Hb. pose proof (BITS_pos HV) as HB. destruct sg; cbn in *.
  - split; [|split]; [apply land_fits_s|apply lor_fits_s|apply lxor_fits_s]; auto; lia.
  - unfold fits_u in *. rewrite <- (Z.mod_small a (2 ^ BITS)), <- (Z.mod_small b (2 ^ BITS)) by lia.
    rewrite land_mod, lor_mod, lxor_mod by lia. split; [|split]; apply Z.mod_pos_bound; lia.
Qed.
Lemma fits_shr : forall (sg : bool) a r, 0 <= r -> fits sg a -> fits sg (a / 2 ^ r).
Proof.
  intros sg a r Hr Ha. assert (0 < 2 ^ r) by (apply Z.pow_pos_nonneg; lia). pose proof (pBh HV) as P2. destruct sg; cbn in *; unfold fits_s, fits_u in *.
  - split; [apply Z.div_le_lower_bound; nia|apply Z.div_lt_upper_bound; nia].
  - split; [apply Z.div_pos; lia|apply Z.div_lt_upper_bound; nia].
Qed.
Lemma xeval_fits : forall sg env e v, (forall i, fits sg (env i)) -> amounts_ok e -> xeval sg env e = Some v -> fits sg v.
Proof.
  intros sg env e v HE. revert v.
  assert (K : forall x v, keep sg x = Some v -> fits sg v).
  { intros x v. rewrite keep_eq. destruct (fitsb_reflect sg x); [|discriminate]. intros [= <-]; auto. }
  induction e; cbn [amounts_ok xeval]; intros v HA;
    repeat match goal with H : _ /\ _ |- _ => destruct H end;
    repeat match goal with IH : forall v, amounts_ok ?a -> _ |- context [xeval sg env ?a] => destruct (xeval sg env a); cbn [both one] end; try discriminate; try (intros [= <-]); eauto.
  all: try apply fits_trunc; try apply fits_shr; try (eapply fits_bits; eauto); try lia; eauto.
Qed.

(** what an evaluation gives for the outcome [o] *)
Definition ores (o : option Z) : res (list Z) := match o with Some v => Ok (ofZ v) | None => Panic end.
Lemma ores_keep : forall sg v, chk = true -> op_result sg v = ores (keep sg v).
Proof. intros sg v H. unfold op_result. rewrite H, keep_eq. destruct (fitsb sg v); reflexivity. Qed.

Lemma shift32 : forall r, 0 <= r < BITS -> shift_ok false 32 r = true /\ r mod 2 ^ 32 mod BITS = r.
Proof.
  intros r Hr. pose proof (BITS_lt HV) as B. unfold shift_ok. rewrite !(Z.mod_small _ (2 ^ 32)) by lia.
  rewrite Z.mod_small by lia. destruct (Z.ltb_spec r BITS), (Z.leb_spec 0 r); auto; lia.
Qed.

(** one step of each kind, on canonical words *)
Lemma st_and : forall a b, bitand_const (ofZ a) (ofZ b) = Ok (ofZ (Z.land a b)).
Proof. intros. pose proof (BITS_pos HV). rewrite (bitand_ok HV) by apply (wf_ofZ HV). f_equal. apply (ofZ_eq_mod HV). rewrite !(uval_ofZ HV), land_mod by lia. apply Z.mod_mod. lia. Qed.
Lemma st_or : forall a b, bitor_const (ofZ a) (ofZ b) = Ok (ofZ (Z.lor a b)).
Proof. intros. pose proof (BITS_pos HV). rewrite (bitor_ok HV) by apply (wf_ofZ HV). f_equal. apply (ofZ_eq_mod HV). rewrite !(uval_ofZ HV), lor_mod by lia. apply Z.mod_mod. lia. Qed.
Lemma st_xor : forall a b, bitxor_const (ofZ a) (ofZ b) = Ok (ofZ (Z.lxor a b)).
Proof. intros. pose proof (BITS_pos HV). rewrite (bitxor_ok HV) by apply (wf_ofZ HV). f_equal. apply (ofZ_eq_mod HV). rewrite !(uval_ofZ HV), lxor_mod by lia. apply Z.mod_mod. lia. Qed.
Lemma st_not : forall sg a, not_const (ofZ a) = Ok (ofZ (trunc sg (Z.lnot a))).
Proof. intros. rewrite (not_const_ok HV) by apply (wf_ofZ HV). f_equal. rewrite ofZ_trunc. apply (ofZ_eq_mod HV). rewrite (uval_ofZ HV), Zminus_mod_idemp_r. f_equal. unfold Z.lnot. lia. Qed.
Lemma st_shl : forall sg a r, 0 <= r < BITS -> op_shl false 32 (ofZ a) r = Ok (ofZ (trunc sg (a * 2 ^ r))).
Proof.
  intros sg a r Hr. rewrite (op_shl_ok HV) by (try apply (wf_ofZ HV); lia). destruct (shift32 r Hr) as [-> ->]. rewrite andb_false_r. f_equal.
  rewrite ofZ_trunc. apply (ofZ_eq_mod HV). rewrite (uval_ofZ HV), Z.mul_mod_idemp_l by lia. reflexivity.
Qed.
Lemma st_shr : forall sg a r, 0 <= r < BITS -> fits sg a -> op_shr sg false 32 (ofZ a) r = Ok (ofZ (a / 2 ^ r)).
Proof.
  intros sg a r Hr Ha. rewrite (op_shr_ok HV) by (try apply (wf_ofZ HV); lia). destruct (shift32 r Hr) as [-> ->]. rewrite andb_false_r. f_equal.
  rewrite (val_ofZ_small HV) by auto. reflexivity.
Qed.
Lemma st_zero : from_u8 0 = Ok (ofZ 0).
Proof. apply (from_u8_ok HV). unfold fits_u. lia. Qed.
Lemma fits_0 : forall sg, fits sg 0.
Proof. intros []; cbn; unfold fits_s, fits_u; [|lia]. assert (0 < 2 ^ (BITS - 1)) by (apply Z.pow_pos_nonneg; pose proof (BITS_pos HV); lia). lia. Qed.

Ltac evals := repeat match goal with H : _ /\ _ |- _ => destruct H end.
Lemma oeval_ok : forall sg env e, (forall i, wf (env i)) -> amounts_ok e -> sg = false \/ no_mul e -> chk = true ->
  oeval sg env e = ores (xeval sg (fun i => val sg (env i)) e).
Proof.
  intros sg env e HE HA HM HC. revert HA HM.
  assert (FE : forall i, fits sg (val sg (env i))) by (intros; apply (fits_val HV); auto).
  induction e; intros HA HM.
  all: try (assert (HM1 : sg = false \/ no_mul e1) by (cbn in HM; tauto)).
  all: try (assert (HM2 : sg = false \/ no_mul e2) by (cbn in HM; tauto)).
  all: try (assert (HM0 : sg = false \/ no_mul e) by (cbn in HM; tauto)).
  all: cbn [amounts_ok] in HA; evals.
  all: cbn [oeval xeval].
  all: try rewrite IHe1 by auto; try rewrite IHe2 by auto; try rewrite IHe by auto.
  all: repeat match goal with |- context [ores (xeval ?s ?en ?a)] => let E := fresh "E" in
         destruct (xeval s en a) eqn:E; [apply xeval_fits in E; [|assumption|assumption]|]; cbn [ores bind both one]; try reflexivity end.
  - cbn [ores]. rewrite (ofZ_val HV) by auto. reflexivity.
  - rewrite (op_add_ok HV), !(val_ofZ_small HV) by (auto; apply (wf_ofZ HV)). apply ores_keep; auto.
  - rewrite (op_sub_ok HV), !(val_ofZ_small HV) by (auto; apply (wf_ofZ HV)). apply ores_keep; auto.
  - destruct HM as [->|[]]. rewrite (op_mul_ok HV), !(val_ofZ_small HV) by (auto; apply (wf_ofZ HV)). rewrite mulf_u.
    apply (ores_keep false); auto.
  - destruct sg.
    + rewrite (op_neg_ok HV) by apply (wf_ofZ HV). change sval with (val true). rewrite (val_ofZ_small HV) by auto. apply ores_keep; auto.
    + rewrite st_zero. cbn [bind]. rewrite (op_sub_ok HV), !(val_ofZ_small HV) by (auto using fits_0; apply (wf_ofZ HV)). apply (ores_keep false); auto.
  - apply st_not.
  - apply st_and.
  - apply st_or.
  - apply st_xor.
  - apply st_shl; auto.
  - apply st_shr; auto.
Qed.
(** with multiplication of signed numbers, or without checks: a value that
    exists is found *)
Lemma op_keep : forall sg v w, keep sg v = Some w -> op_result sg v = Ok (ofZ w).
Proof. intros sg v w. rewrite keep_eq. unfold op_result. destruct (fitsb sg v); [|discriminate]. intros [= <-]. rewrite andb_false_r. reflexivity. Qed.
Lemma oeval_sound : forall sg env e v, (forall i, wf (env i)) -> amounts_ok e ->
  xeval sg (fun i => val sg (env i)) e = Some v -> oeval sg env e = Ok (ofZ v).
Proof.
  intros sg env e v HE HA. revert v HA.
  assert (FE : forall i, fits sg (val sg (env i))) by (intros; apply (fits_val HV); auto).
  induction e; intros v HA; cbn [amounts_ok] in HA; evals; cbn [oeval xeval].
  all: repeat match goal with |- context [xeval ?s ?en ?a] => let E := fresh "E" in
         destruct (xeval s en a) eqn:E; cbn [both one]; try discriminate end.
  all: try (rewrite (IHe1 _ ltac:(assumption) eq_refl)); try (rewrite (IHe2 _ ltac:(assumption) eq_refl)); try (rewrite (IHe _ ltac:(assumption) eq_refl)); cbn [bind].
  all: repeat match goal with E : xeval _ _ _ = Some _ |- _ => apply xeval_fits in E; [|assumption|assumption] end.
  - intros [= <-]. rewrite (ofZ_val HV) by auto. reflexivity.
  - rewrite (op_add_ok HV), !(val_ofZ_small HV) by (auto; apply (wf_ofZ HV)). apply op_keep.
  - rewrite (op_sub_ok HV), !(val_ofZ_small HV) by (auto; apply (wf_ofZ HV)). apply op_keep.
  - rewrite (op_mul_ok HV), !(val_ofZ_small HV) by (auto; apply (wf_ofZ HV)). rewrite keep_eq.
    destruct (fitsb_reflect sg (z * z0)) as [F|F]; [|discriminate]. intros [= <-]. rewrite (mulf_fits HV) by auto. rewrite andb_false_r. reflexivity.
  - destruct sg.
    + rewrite (op_neg_ok HV) by apply (wf_ofZ HV). change sval with (val true). rewrite (val_ofZ_small HV) by auto. apply op_keep.
    + rewrite st_zero. cbn [bind]. rewrite (op_sub_ok HV), !(val_ofZ_small HV) by (auto using fits_0; apply (wf_ofZ HV)). apply op_keep.
  - intros [= <-]. apply st_not.
  - intros [= <-]. apply st_and.
  - intros [= <-]. apply st_or.
  - intros [= <-]. apply st_xor.
  - intros [= <-]. apply st_shl; auto.
  - intros [= <-]. apply st_shr; auto.
Qed.
(** without overflow checks the operators are the wrapping methods *)
Lemma weval_wf : forall sg env e, (forall i, wf (env i)) -> amounts_ok e -> exists v, weval sg env e = Ok (ofZ v).
Proof.
  intros sg env e HE. assert (WF : forall v, wf (ofZ v)) by apply (wf_ofZ HV).
  induction e; intros HA; cbn [amounts_ok] in HA; evals; cbn [weval].
  all: try (destruct (IHe1 ltac:(assumption)) as (v1 & ->)); try (destruct (IHe2 ltac:(assumption)) as (v2 & ->)); try (destruct (IHe ltac:(assumption)) as (v & ->)); cbn [bind].
  - exists (val sg (env i)). rewrite (ofZ_val HV) by auto. reflexivity.
  - rewrite (wrapping_add_ok HV) by auto. eauto.
  - rewrite (wrapping_sub_ok HV) by auto. eauto.
  - rewrite (wrapping_mul_ok HV) by auto. eauto.
  - destruct sg; [rewrite (s_wrapping_neg_ok HV)|rewrite (u_wrapping_neg_ok HV)]; eauto.
  - rewrite (not_const_ok HV) by auto. eauto.
  - rewrite st_and. eauto.
  - rewrite st_or. eauto.
  - rewrite st_xor. eauto.
  - rewrite (wrapping_shl_ok HV) by auto. eauto.
  - rewrite (wrapping_shr_ok HV) by auto. eauto.
Qed.
Lemma oeval_release : forall sg env e, (forall i, wf (env i)) -> amounts_ok e -> chk = false -> oeval sg env e = weval sg env e.
Proof.
  intros sg env e HE HA HC. revert HA. assert (WF : forall v, wf (ofZ v)) by apply (wf_ofZ HV).
  induction e; intros HA; cbn [amounts_ok] in HA; evals; cbn [oeval weval]; auto.
  all: try rewrite IHe1 by auto; try rewrite IHe2 by auto; try rewrite IHe by auto.
  all: try (destruct (weval_wf sg env e1 HE ltac:(assumption)) as (v1 & ->)); try (destruct (weval_wf sg env e2 HE ltac:(assumption)) as (v2 & ->)); try (destruct (weval_wf sg env e HE ltac:(assumption)) as (v & ->)); cbn [bind]; auto.
  - rewrite (op_add_ok HV), (wrapping_add_ok HV) by auto. unfold op_result. rewrite HC. reflexivity.
  - rewrite (op_sub_ok HV), (wrapping_sub_ok HV) by auto. unfold op_result. rewrite HC. reflexivity.
  - rewrite (op_mul_ok HV), (wrapping_mul_ok HV) by auto. rewrite HC. reflexivity.
  - destruct sg.
    + rewrite (op_neg_ok HV), (s_wrapping_neg_ok HV) by auto. unfold op_result. rewrite HC. reflexivity.
    + rewrite st_zero. cbn [bind]. rewrite (op_sub_ok HV), (u_wrapping_neg_ok HV) by auto. unfold op_result. rewrite HC. cbn [andb]. cbn [val].
      rewrite (uval_ofZ HV 0), Z.mod_0_l by lia. f_equal.
  - rewrite (op_shl_ok HV), (wrapping_shl_ok HV) by (auto; lia). rewrite HC. cbn [andb]. destruct (shift32 r ltac:(split; assumption)) as [_ ->]. rewrite Z.mod_small by lia. reflexivity.
  - rewrite (op_shr_ok HV), (wrapping_shr_ok HV) by (auto; lia). rewrite HC. cbn [andb]. destruct (shift32 r ltac:(split; assumption)) as [_ ->]. rewrite Z.mod_small by lia. reflexivity.
Qed.
Definition cres (o : option Z) : res (option (list Z)) := match o with Some v => Ok (Some (ofZ v)) | None => Ok None end.
Lemma cres_keep : forall sg v, Ok (some_if (fitsb sg v) v) = cres (keep sg v).
Proof. intros sg v. rewrite keep_eq. destruct (fitsb sg v); reflexivity. Qed.
Lemma ceval_ok : forall sg env e, (forall i, wf (env i)) -> amounts_ok e -> sg = false \/ no_mul e ->
  ceval sg env e = cres (xeval sg (fun i => val sg (env i)) e).
Proof.
  intros sg env e HE HA HM. revert HA HM. assert (WF : forall v, wf (ofZ v)) by apply (wf_ofZ HV).
  assert (FE : forall i, fits sg (val sg (env i))) by (intros; apply (fits_val HV); auto).
  induction e; intros HA HM.
  all: try (assert (HM1 : sg = false \/ no_mul e1) by (cbn in HM; tauto)).
  all: try (assert (HM2 : sg = false \/ no_mul e2) by (cbn in HM; tauto)).
  all: try (assert (HM0 : sg = false \/ no_mul e) by (cbn in HM; tauto)).
  all: cbn [amounts_ok] in HA; evals.
  all: cbn [ceval xeval]; unfold obind.
  all: try rewrite IHe1 by auto; try rewrite IHe2 by auto; try rewrite IHe by auto.
  all: repeat match goal with |- context [cres (xeval ?s ?en ?a)] => let E := fresh "E" in
         destruct (xeval s en a) eqn:E; [apply xeval_fits in E; [|assumption|assumption]|]; cbn [cres bind both one]; try reflexivity end.
  - cbn [cres]. rewrite (ofZ_val HV) by auto. reflexivity.
  - rewrite (checked_add_ok HV), !(val_ofZ_small HV) by auto. apply cres_keep.
  - rewrite (checked_sub_ok HV), !(val_ofZ_small HV) by auto. apply cres_keep.
  - destruct HM as [->|[]]. rewrite (checked_mul_ok HV), !(val_ofZ_small HV) by auto. rewrite mulf_u, negb_involutive. apply cres_keep.
  - destruct sg.
    + rewrite (s_checked_neg_ok HV) by auto. change sval with (val true). rewrite (val_ofZ_small HV) by auto. apply cres_keep.
    + rewrite (u_checked_neg_ok HV) by auto. change uval with (val false). rewrite (val_ofZ_small HV) by auto. rewrite keep_eq.
      cbn in E. unfold fits_u in E. destruct (Z.eqb_spec z 0) as [->|NZ]; [destruct (fitsb_reflect false (- 0)) as [F|F]|destruct (fitsb_reflect false (- z)) as [F|F]]; cbn in F; unfold fits_u in F; try reflexivity; lia.
  - rewrite (st_not sg). reflexivity.
  - rewrite st_and. reflexivity.
  - rewrite st_or. reflexivity.
  - rewrite st_xor. reflexivity.
  - rewrite (checked_shl_ok HV) by (auto; lia). destruct (Z.ltb_spec r BITS); [|lia]. cbn [some_if cres]. do 2 f_equal.
    rewrite ofZ_trunc. apply (ofZ_eq_mod HV). rewrite (uval_ofZ HV), Z.mul_mod_idemp_l by lia. reflexivity.
  - rewrite (checked_shr_ok HV) by (auto; lia). destruct (Z.ltb_spec r BITS); [|lia]. rewrite (val_ofZ_small HV) by auto. reflexivity.
Qed.
End X.

(** Wrapping evaluation is the integer expression modulo [2^BITS]: no
    rounding accumulates over any nesting. *)
Theorem C67_wrapping : forall (c : Cfg) sg env e, Valid -> (forall i, wf (env i)) -> amounts_ok e -> no_shr e ->
  returns_u (weval sg env e) (zeval (enum sg env) e mod 2 ^ BITS) /\
  returns_s (weval sg env e) (swrap BITS (zeval (enum sg env) e)).
Proof.
  intros c sg env e HV HE HA HN. change (enum sg env) with (fun i => val sg (env i)). rewrite (weval_ok HV) by auto.
  split; [apply (retU HV)|apply (retS HV)]; reflexivity.
Qed.
(** Signed and unsigned wrapping evaluation agree limb for limb. *)
Theorem C67_sign_blind : forall (c : Cfg) env e, Valid -> (forall i, wf (env i)) -> amounts_ok e -> no_shr e ->
  weval true env e = weval false env e.
Proof.
  intros c env e HV HE HA HN. rewrite !(weval_ok HV) by auto. f_equal. apply (ofZ_eq_mod HV). apply (zeval_mod HV); auto.
  intros i. cbn [val]. rewrite (sval_mod HV) by auto.
  rewrite Z.mod_small; [reflexivity|]. apply (uval_range HV). auto.
Qed.
(** Every integer identity is an identity of the wrapping operations. *)
Theorem C67_identities : forall (c : Cfg) sg env e e', Valid -> (forall i, wf (env i)) -> amounts_ok e -> no_shr e -> amounts_ok e' -> no_shr e' ->
  (forall z, zeval z e = zeval z e') -> weval sg env e = weval sg env e'.
Proof. intros c sg env e e' HV HE HA HN HA' HN' H. rewrite !(weval_ok HV), H by auto. reflexivity. Qed.
(** With overflow checks, operators either compute the exact value or panic,
    and panic exactly when some intermediate number is not representable. *)
Theorem C67_operators : forall (c : Cfg) sg env e, Valid -> (forall i, wf (env i)) -> amounts_ok e -> chk = true -> sg = false \/ no_mul e ->
  match xeval sg (enum sg env) e with
  | Some v => if sg then returns_s (oeval sg env e) v else returns_u (oeval sg env e) v
  | None => oeval sg env e = Panic
  end.
Proof.
  intros c sg env e HV HE HA HC HM. change (enum sg env) with (fun i => val sg (env i)). rewrite (oeval_ok HV) by auto.
  destruct (xeval _ _ e) as [v|] eqn:E; cbn [ores]; [|reflexivity]. apply (xeval_fits HV) in E; auto; [|intros; apply (fits_val HV); auto].
  destruct sg; [apply (retS1 HV)|apply (retU1 HV)]; auto.
Qed.
(** Signed products included and with or without checks: representable
    intermediate numbers are enough for the exact result. *)
Theorem C67_operators_exact : forall (c : Cfg) sg env e v, Valid -> (forall i, wf (env i)) -> amounts_ok e ->
  xeval sg (enum sg env) e = Some v -> if sg then returns_s (oeval sg env e) v else returns_u (oeval sg env e) v.
Proof.
  intros c sg env e v HV HE HA E. change (enum sg env) with (fun i => val sg (env i)) in E. rewrite (oeval_sound HV sg env e v) by auto.
  apply (xeval_fits HV) in E; auto; [|intros; apply (fits_val HV); auto]. destruct sg; [apply (retS1 HV)|apply (retU1 HV)]; auto.
Qed.
(** For signed products the converse fails: an unrepresentable product is
    accepted with checks on (the wrong flag of C06). *)
Theorem C67_operators_refuted : exists (c : Cfg) env e, Valid /\ (forall i, wf (env i)) /\ amounts_ok e /\ chk = true /\
  xeval true (enum true env) e = None /\ oeval true env e <> Panic.
Proof.
  exists c256_64, (fun i => match i with O => E64 (- (2 ^ 254 + 1)) | _ => E64 2 end), (EMul (EVar 0) (EVar 1)).
  split; [exact valid_c256_64|]. split; [intros [|]; apply (wf_ofZ valid_c256_64)|]. split; [cbn; auto|]. split; [reflexivity|].
  split; [vm_compute; reflexivity|vm_compute; discriminate].
Qed.
(** Without overflow checks the operators are the wrapping methods. *)
Theorem C67_release : forall (c : Cfg) sg env e, Valid -> (forall i, wf (env i)) -> amounts_ok e -> chk = false ->
  oeval sg env e = weval sg env e.
Proof. intros c sg env e HV. apply (oeval_release HV). Qed.
(** The checked methods return [Some] of the exact value, or [None] exactly
    when some intermediate number is not representable. *)
Theorem C67_checked : forall (c : Cfg) sg env e, Valid -> (forall i, wf (env i)) -> amounts_ok e -> sg = false \/ no_mul e ->
  match xeval sg (enum sg env) e with
  | Some v => exists w, ceval sg env e = Ok (Some w) /\ wf w /\ (if sg then sval w else uval w) = v
  | None => ceval sg env e = Ok None
  end.
Proof.
  intros c sg env e HV HE HA HM. change (enum sg env) with (fun i => val sg (env i)). rewrite (ceval_ok HV) by auto.
  destruct (xeval _ _ e) as [v|] eqn:E; cbn [cres]; [|reflexivity]. apply (xeval_fits HV) in E; auto; [|intros; apply (fits_val HV); auto].
  exists (ofZ v). split; [reflexivity|]. split; [apply (wf_ofZ HV)|]. change (val sg (ofZ v) = v). apply (val_ofZ_small HV); auto.
Qed.

(** [(a + b) * (a - b) = a * a - b * b], an identity the last theorems use. *)
Definition diff_sq : expr := EMul (EAdd (EVar 0) (EVar 1)) (ESub (EVar 0) (EVar 1)).
Definition sq_diff : expr := ESub (EMul (EVar 0) (EVar 0)) (EMul (EVar 1) (EVar 1)).
Example C67_ex1 : (forall z, zeval z diff_sq = zeval z sq_diff) /\
  @weval c256_64 true (fun i => match i with O => E64 (- 2 ^ 255) | _ => E64 (2 ^ 200 + 3) end) diff_sq =
  @weval c256_64 true (fun i => match i with O => E64 (- 2 ^ 255) | _ => E64 (2 ^ 200 + 3) end) sq_diff.
Proof. split; [intros; cbn; ring|vm_compute; reflexivity]. Qed.
Definition cancel : expr := ESub (EAdd (EVar 0) (EVar 1)) (EVar 1).
Definition env_ex (c : Cfg) (i : nat) : list Z := match i with O => @ofZ c (2 ^ (@BITS c - 1) - 1) | _ => @ofZ c 5 end.
Example C67_ex2 : @oeval c256_32 true (env_ex c256_32) cancel = Panic /\ @ceval c256_32 true (env_ex c256_32) cancel = Ok None /\
  @oeval c256_32 false (env_ex c256_32) cancel = Ok (E32 (2 ^ 255 - 1)) /\ @oeval c512_32 true (env_ex c512_32) cancel = Ok (E512 (2 ^ 511 - 1)) /\
  @ceval c384_64 false (env_ex c384_64) (EShr (EMul (EXor (EVar 0) (EVar 1)) (EVar 1)) 3) = Ok None /\
  @ceval c384_64 true (env_ex c384_64) (EShr (ENot (EShl (EVar 1) 380)) 378) = Ok (Some (E384 (-21))).
Proof. vm_compute. auto 10. Qed.

(** ** Assumptions (each must print "Closed under the global context") *)

Print Assumptions C66_add.
Print Assumptions C66_sub.
Print Assumptions C66_mul_word.
Print Assumptions C66_mul.
Print Assumptions C66_sub_add.
Print Assumptions C67_wrapping.
Print Assumptions C67_sign_blind.
Print Assumptions C67_identities.
Print Assumptions C67_operators.
Print Assumptions C67_operators_exact.
Print Assumptions C67_operators_refuted.
Print Assumptions C67_release.
Print Assumptions C67_checked.
