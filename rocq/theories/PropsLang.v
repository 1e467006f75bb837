(** * Properties: client programs of any shape (C87), and [Ord] (C88)

    Lang.v defines the programs and their meaning over the integers, PLang.v the
    two interpreters ([corrected], [published]), the inputs on which the published
    operations are not claimed to be right ([known_defects]) and the relation
    [meets] between a meaning and a run. *)

Require Import ZArith List Bool Lia.
From Verif Require Import Prim Spec Facts MCore PCore PWide PRet MArith PArith PArith2 MApi PropsFix2 MOrd Lang PLang PLang2.
Import ListNotations.
Local Open Scope Z_scope.

(** ** C87 *)

(** The operations about which there is no doubt at any input. *)
Definition plain1 (sg : bool) (o : op1) : Prop :=
  match o with Abs | TryCast => False | Pow _ => sg = false | _ => True end.
Definition plain2 (sg : bool) (o : op2) : Prop :=
  match o with
  | Div | Rem | DivEuclid | RemEuclid | DivFloor | DivCeil | ShlBy | ShrBy => False
  | Mul | SaturatingMul | Midpoint => sg = false
  | _ => True
  end.
Definition plainc (sg : bool) (o : opc) : Prop :=
  match o with CAdd | CSub => True | CMul => sg = false | _ => False end.
Definition plaino (sg : bool) (o : opo) : Prop := match o with OMul => sg = false | _ => True end.
Fixpoint plain_e {sg : bool} (e : expr sg) : Prop :=
  match e with
  | EVar _ _ | ELit _ _ => True
  | EOp1 g o a => plain1 g o /\ plain_e a
  | EOp2 g o a b => plain2 g o /\ plain_e a /\ plain_e b
  end.
Fixpoint plain_b (b : cond) : Prop :=
  match b with
  | BEq _ x y | BLt _ x y | BLe _ x y => plain_e x /\ plain_e y
  | BNot a => plain_b a
  | BAnd a b => plain_b a /\ plain_b b
  end.
Fixpoint plain (p : prog) : Prop :=
  match p with
  | PSkip => True
  | PSet _ _ e => plain_e e
  | PSeq p q => plain p /\ plain q
  | PIf b p q => plain_b b /\ plain p /\ plain q
  | PWhile b p => plain_b b /\ plain p
  | PChecked g o _ x y p q => plainc g o /\ (plain_e x /\ plain_e y) /\ plain p /\ plain q
  | POverflowing g o _ x y p q => plaino g o /\ (plain_e x /\ plain_e y) /\ plain p /\ plain q
  end.

Section Aux.
Context {c : Cfg}.
Definition decided {A} (z : outcome A) : Prop := z <> Unknown.
Lemma then_decided : forall {A B} (z : outcome A) (k : A -> outcome B), decided z -> (forall a, decided (k a)) -> decided (and_then z k).
Proof. intros A B z k H K. destruct z; cbn; try discriminate; [apply K|contradiction]. Qed.
Lemma sure_e : forall sg (e : expr sg) z, decided (zeval BITS chk sure z e).
Proof.
  induction e as [g i|g v|g o a IH|g o a IHa b IHb]; intros z; cbn [zeval]; try discriminate.
  - apply then_decided; [apply IH|]. intros x. unfold ranged, amount. destruct o; cbn; unfold ranged, amount; repeat match goal with |- context [if ?b then _ else _] => destruct b end; discriminate.
  - apply then_decided; [apply IHa|]. intros x. apply then_decided; [apply IHb|]. intros y.
    destruct o; cbn; unfold ranged, amount; repeat match goal with |- context [if ?b then _ else _] => destruct b end; discriminate.
Qed.
Lemma sure_b : forall b z, decided (ztest BITS chk sure z b).
Proof.
  induction b as [g a b|g a b|g a b|a IH|a IHa b IHb]; intros z; cbn [ztest].
  1-3: apply then_decided; [apply sure_e|]; intros x; apply then_decided; [apply sure_e|]; intros y; discriminate.
  - apply then_decided; [apply IH|]. discriminate.
  - apply then_decided; [apply IHa|]. intros []; [apply IHb|discriminate].
Qed.
Lemma sure_p : forall fuel p z, decided (zexec BITS chk sure fuel p z).
Proof.
  induction fuel as [|fuel IH]; intros p z; [discriminate|].
  destruct p as [|g i e|p q|b p q|b p|g o i a b p q|g o i a b p q]; cbn [zexec].
  - discriminate.
  - apply then_decided; [apply sure_e|]. discriminate.
  - apply then_decided; [apply IH|]. intros z'. apply IH.
  - apply then_decided; [apply sure_b|]. intros []; apply IH.
  - apply then_decided; [apply sure_b|]. intros []; [|discriminate]. apply then_decided; [apply IH|]. intros z'. apply IH.
  - apply then_decided; [apply sure_e|]. intros x. apply then_decided; [apply sure_e|]. intros y.
    apply then_decided; [destruct o; discriminate|]. intros []; apply IH.
  - apply then_decided; [apply sure_e|]. intros x. apply then_decided; [apply sure_e|]. intros y.
    apply then_decided; [discriminate|]. intros [v []]; apply IH.
Qed.

(** an answer under doubts is the answer without *)
Definition refines {A} (z1 z2 : outcome A) : Prop := z1 = Unknown \/ z1 = z2.
Lemma then_refines : forall {A B} (z1 z2 : outcome A) (k1 k2 : A -> outcome B), refines z1 z2 -> (forall a, refines (k1 a) (k2 a)) -> refines (and_then z1 k1) (and_then z2 k2).
Proof. intros A B z1 z2 k1 k2 [-> | ->] K; [left; reflexivity|]. destruct z2; cbn; [apply K|right; reflexivity|right; reflexivity|left; reflexivity]. Qed.
Lemma unless_refines : forall {A} b (z : outcome A), refines (unless b z) z.
Proof. intros A [] z; [left|right]; reflexivity. Qed.
Lemma refl_refines : forall {A} (z : outcome A), refines z z.
Proof. right. reflexivity. Qed.
Lemma doubt_e : forall D sg (e : expr sg) z, refines (zeval BITS chk D z e) (zeval BITS chk sure z e).
Proof.
  intros D. induction e as [g i|g v|g o a IH|g o a IHa b IHb]; intros z; cbn [zeval]; try apply refl_refines.
  - apply then_refines; [apply IH|]. intros x. apply unless_refines.
  - apply then_refines; [apply IHa|]. intros x. apply then_refines; [apply IHb|]. intros y. apply unless_refines.
Qed.
Lemma doubt_b : forall D b z, refines (ztest BITS chk D z b) (ztest BITS chk sure z b).
Proof.
  intros D. induction b as [g a b|g a b|g a b|a IH|a IHa b IHb]; intros z; cbn [ztest].
  1-3: apply then_refines; [apply doubt_e|]; intros x; apply then_refines; [apply doubt_e|]; intros y; apply refl_refines.
  - apply then_refines; [apply IH|]. intros r. apply refl_refines.
  - apply then_refines; [apply IHa|]. intros []; [apply IHb|apply refl_refines].
Qed.
Lemma doubt_p : forall D fuel p z, refines (zexec BITS chk D fuel p z) (zexec BITS chk sure fuel p z).
Proof.
  intros D. induction fuel as [|fuel IH]; intros p z; [apply refl_refines|].
  destruct p as [|g i e|p q|b p q|b p|g o i a b p q|g o i a b p q]; cbn [zexec].
  - apply refl_refines.
  - apply then_refines; [apply doubt_e|]. intros x. apply refl_refines.
  - apply then_refines; [apply IH|]. intros z'. apply IH.
  - apply then_refines; [apply doubt_b|]. intros []; apply IH.
  - apply then_refines; [apply doubt_b|]. intros []; [|apply refl_refines]. apply then_refines; [apply IH|]. intros z'. apply IH.
  - apply then_refines; [apply doubt_e|]. intros x. apply then_refines; [apply doubt_e|]. intros y.
    apply then_refines; [apply unless_refines|]. intros []; apply IH.
  - apply then_refines; [apply doubt_e|]. intros x. apply then_refines; [apply doubt_e|]. intros y.
    apply then_refines; [apply unless_refines|]. intros [v []]; apply IH.
Qed.

(** plain programs raise no doubt *)
Lemma plain1_ok : forall sg o x, plain1 sg o -> bad1 known_defects sg o x = false.
Proof. intros sg o x H. destruct o; cbn in *; try contradiction; try subst; cbn; rewrite ?andb_false_r; reflexivity. Qed.
Lemma plain2_ok : forall sg o x y, plain2 sg o -> bad2 known_defects sg o x y = false.
Proof. intros sg o x y H. destruct o; cbn in *; try contradiction; try subst; cbn; rewrite ?andb_false_r; reflexivity. Qed.
Lemma plainc_ok : forall sg o x y, plainc sg o -> badc known_defects sg o x y = false.
Proof. intros sg o x y H. destruct o; cbn in *; try contradiction; try subst; cbn; rewrite ?andb_false_r; reflexivity. Qed.
Lemma plaino_ok : forall sg o x y, plaino sg o -> bado known_defects sg o x y = false.
Proof. intros sg o x y H. destruct o; cbn in *; try contradiction; try subst; cbn; rewrite ?andb_false_r; reflexivity. Qed.
Lemma then_eq : forall {A B} (z1 z2 : outcome A) (k1 k2 : A -> outcome B), z1 = z2 -> (forall a, k1 a = k2 a) -> and_then z1 k1 = and_then z2 k2.
Proof. intros A B z1 z2 k1 k2 -> K. destruct z2; cbn; auto. Qed.
Lemma plain_e_eq : forall sg (e : expr sg) z, plain_e e -> zeval BITS chk known_defects z e = zeval BITS chk sure z e.
Proof.
  induction e as [g i|g v|g o a IH|g o a IHa b IHb]; intros z P; cbn [zeval plain_e] in *; auto.
  - apply then_eq; [apply IH; tauto|]. intros x. rewrite plain1_ok by tauto. reflexivity.
  - apply then_eq; [apply IHa; tauto|]. intros x. apply then_eq; [apply IHb; tauto|]. intros y. rewrite plain2_ok by tauto. reflexivity.
Qed.
Lemma plain_b_eq : forall b z, plain_b b -> ztest BITS chk known_defects z b = ztest BITS chk sure z b.
Proof.
  induction b as [g a b|g a b|g a b|a IH|a IHa b IHb]; intros z P; cbn [ztest plain_b] in *.
  1-3: apply then_eq; [apply plain_e_eq; tauto|]; intros x; apply then_eq; [apply plain_e_eq; tauto|]; reflexivity.
  - apply then_eq; [apply IH; auto|]. reflexivity.
  - apply then_eq; [apply IHa; tauto|]. intros []; [apply IHb; tauto|reflexivity].
Qed.
Lemma plain_p_eq : forall fuel p z, plain p -> zexec BITS chk known_defects fuel p z = zexec BITS chk sure fuel p z.
Proof.
  induction fuel as [|fuel IH]; intros p z P; [reflexivity|].
  destruct p as [|g i e|p q|b p q|b p|g o i a b p q|g o i a b p q]; cbn [zexec plain] in *.
  - reflexivity.
  - apply then_eq; [apply plain_e_eq; auto|]. reflexivity.
  - apply then_eq; [apply IH; tauto|]. intros z'. apply IH; tauto.
  - apply then_eq; [apply plain_b_eq; tauto|]. intros []; apply IH; tauto.
  - apply then_eq; [apply plain_b_eq; tauto|]. intros []; [|reflexivity]. apply then_eq; [apply IH; tauto|]. intros z'. apply IH; auto.
  - apply then_eq; [apply plain_e_eq; tauto|]. intros x. apply then_eq; [apply plain_e_eq; tauto|]. intros y.
    rewrite plainc_ok by tauto. apply then_eq; [reflexivity|]. intros []; apply IH; tauto.
  - apply then_eq; [apply plain_e_eq; tauto|]. intros x. apply then_eq; [apply plain_e_eq; tauto|]. intros y.
    rewrite plaino_ok by tauto. apply then_eq; [reflexivity|]. intros [v []]; apply IH; tauto.
Qed.
(** fuel *)
Lemma more_fuel : forall M fuel p s, exec M fuel p s <> OutOfFuel -> forall k, exec M (fuel + k) p s = exec M fuel p s.
Proof.
  assert (B : forall {A B} (m m' : res A) (f g : A -> res B), (m <> OutOfFuel -> m' = m) -> (forall a, f a <> OutOfFuel -> g a = f a) -> bind m f <> OutOfFuel -> bind m' g = bind m f).
  { intros A B m m' f g H1 H2 H. destruct m as [a| |]; cbn [bind] in *; [rewrite H1 by discriminate; cbn; apply H2; auto|rewrite H1 by discriminate; reflexivity|contradiction]. }
  intros M. induction fuel as [|fuel IH]; intros p s H k; [contradiction|].
  destruct p as [|g i e|p q|b p q|b p|g o i a b p q|g o i a b p q]; cbn [exec plus] in *.
  - reflexivity.
  - reflexivity.
  - revert H. apply B; intros; [apply IH|apply IH]; auto.
  - revert H. apply B; auto. intros []; intros; apply IH; auto.
  - revert H. apply B; auto. intros []; [|auto]. apply B; intros; apply IH; auto.
  - revert H. apply B; auto. intros x. apply B; auto. intros y. apply B; auto. intros []; intros; apply IH; auto.
  - revert H. apply B; auto. intros x. apply B; auto. intros y. apply B; auto. intros [v []]; intros; apply IH; auto.
Qed.
End Aux.

(** With the corrections, a program does what it means: it ends with the values
    foreseen, panics where foreseen, and runs on where foreseen. *)
Theorem C87_corrected : forall (c : Cfg) fuel p z s, Valid -> proper p -> same_store z s ->
  meets same_store (zexec BITS chk sure fuel p z) (exec corrected fuel p s).
Proof. intros c fuel p z s HV. apply exec_meets. apply (corrected_faithful HV). Qed.
(** ... and no program is left out. *)
Theorem C87_decided : forall (c : Cfg) fuel p z, zexec BITS chk sure fuel p z <> Unknown.
Proof. intros c. apply sure_p. Qed.
(** As published, it does so unless some operation meets an input on the list. *)
Theorem C87_published : forall (c : Cfg) fuel p z s, Valid -> proper p -> same_store z s ->
  zexec BITS chk known_defects fuel p z <> Unknown ->
  zexec BITS chk known_defects fuel p z = zexec BITS chk sure fuel p z /\
  meets same_store (zexec BITS chk sure fuel p z) (exec published fuel p s).
Proof.
  intros c fuel p z s HV P S H. destruct (doubt_p known_defects fuel p z) as [E|E]; [contradiction|]. split; [exact E|]. rewrite <- E.
  apply exec_meets; auto. apply (published_faithful HV).
Qed.
(** The list is exact: off it an operation does what is meant, on it it does not. *)
Theorem C87_list : forall (c : Cfg) sg x y, Valid -> wf x -> wf y -> let a := number sg x in let b := number sg y in
  (forall o, proper1 sg o -> (bad1 known_defects sg o a = false <->
     meets (stands (ty1 o sg)) (exact1 BITS chk sg o a) (run1 published sg o x))) /\
  (forall o, bad2 known_defects sg o a b = false <->
     meets (stands (ty2 o sg)) (exact2 BITS chk sg o a b) (run2 published sg o x y)) /\
  (forall o, badc known_defects sg o a b = false <->
     meets (opt_rel (stands sg)) (exactc BITS sg o a b) (runc published sg o x y)) /\
  (forall o, bado known_defects sg o a b = false <->
     meets (fun p q => stands sg (fst p) (fst q) /\ snd p = snd q) (exacto BITS sg o a b) (runo published sg o x y)).
Proof.
  intros c sg x y HV Hx Hy a b. split; [|split; [|split]]; intros o.
  - intros P. apply (list_1 HV); auto.
  - apply (list_2 HV); auto.
  - apply (list_c HV); auto.
  - apply (list_o HV); auto.
Qed.
(** Programs without division, signed products and the other operations on the
    list need no condition. *)
Theorem C87_plain : forall (c : Cfg) fuel p z s, Valid -> proper p -> plain p -> same_store z s ->
  meets same_store (zexec BITS chk sure fuel p z) (exec published fuel p s).
Proof.
  intros c fuel p z s HV P Q S. rewrite <- plain_p_eq by auto. apply exec_meets; auto. apply (published_faithful HV).
Qed.
(** One width, two limb sizes: the same results, panics and endless loops. *)
Definition alike {A B} (R : A -> B -> Prop) (m1 : res A) (m2 : res B) : Prop :=
  match m1, m2 with Ok a, Ok b => R a b | Panic, Panic | OutOfFuel, OutOfFuel => True | _, _ => False end.
Definition same_values (c1 c2 : Cfg) (s1 s2 : store (list Z)) : Prop :=
  forall sg i, @wf c1 (s1 sg i) /\ @wf c2 (s2 sg i) /\ @number c1 sg (s1 sg i) = @number c2 sg (s2 sg i).
Theorem C87_limb_size : forall (c1 c2 : Cfg) fuel p s1 s2, @Valid c1 -> @Valid c2 -> @BITS c1 = @BITS c2 -> @chk c1 = @chk c2 ->
  proper p -> same_values c1 c2 s1 s2 ->
  alike (same_values c1 c2) (exec (@corrected c1) fuel p s1) (exec (@corrected c2) fuel p s2) /\
  (plain p -> alike (same_values c1 c2) (exec (@published c1) fuel p s1) (exec (@published c2) fuel p s2)).
Proof.
  intros c1 c2 fuel p s1 s2 V1 V2 EB EC P S. set (z := fun sg i => @number c1 sg (s1 sg i)).
  assert (S1 : @same_store c1 z s1) by (intros sg i; split; [apply S|reflexivity]).
  assert (S2 : @same_store c2 z s2) by (intros sg i; destruct (S sg i) as (A & B & E); split; [exact B|symmetry; exact E]).
  assert (K : forall m1 m2, meets (@same_store c1) (zexec (@BITS c1) (@chk c1) sure fuel p z) m1 -> meets (@same_store c2) (zexec (@BITS c1) (@chk c1) sure fuel p z) m2 ->
    alike (same_values c1 c2) m1 m2).
  { intros m1 m2 H1 H2. pose proof (@sure_p c1 fuel p z) as D. unfold decided in D. destruct (zexec _ _ _ _ _ _) as [z'| | |]; cbn [meets] in *; [|subst; exact I|subst; exact I|contradiction].
    destruct H1 as (a & -> & Ra), H2 as (b & -> & Rb). intros sg i. destruct (Ra sg i) as (A1 & A2), (Rb sg i) as (B1 & B2). split; [exact A1|]. split; [exact B1|]. congruence. }
  split.
  - apply K; [apply C87_corrected; auto|]. rewrite EB, EC. apply C87_corrected; auto.
  - intros Q. apply K; [apply C87_plain; auto|]. rewrite EB, EC. apply C87_plain; auto.
Qed.
(** The fuel only says how long the run is watched. *)
Theorem C87_fuel : forall M fuel p s, exec M fuel p s <> OutOfFuel -> forall k, exec M (fuel + k) p s = exec M fuel p s.
Proof. exact more_fuel. Qed.

(** *** Examples *)
Definition v (i : nat) : expr false := EVar false i.
Definition n (k : Z) : expr false := ELit false k.
Definition start {c : Cfg} : store (list Z) := fun _ _ => ofZ 0.
Definition zstart : store Z := fun _ _ => 0.
Definition show {c : Cfg} (m : res (store (list Z))) (sg : bool) (i : nat) : res Z :=
  match m with Ok s => Ok (number sg (s sg i)) | Panic => Panic | OutOfFuel => OutOfFuel end.
Definition zshow (m : outcome (store Z)) (sg : bool) (i : nat) : outcome Z :=
  match m with Done s => Done (s sg i) | Panicked => Panicked | Unfinished => Unfinished | Unknown => Unknown end.
Lemma start_same : forall (c : Cfg), Valid -> same_store zstart start.
Proof. intros c HV sg i. split; [apply (wf_ofZ HV)|]. exact (val_ofZ_small HV sg 0 (fits_0 HV sg)). Qed.

(** Euclid's algorithm on two numbers of about 200 bits: (3^60 * 2^100, 3^50 * 10^30). *)
Definition euclid : prog :=
  PSeq (PSet false 0 (EOp2 false Mul (EOp1 false (Pow 60) (n 3)) (EOp1 false (Shl 100) (n 1))))
  (PSeq (PSet false 1 (EOp2 false Mul (EOp1 false (Pow 50) (n 3)) (EOp1 false (Pow 30) (n 10))))
  (PWhile (BNot (BEq false (v 1) (n 0)))
    (PSeq (PSet false 2 (EOp2 false Rem (v 0) (v 1))) (PSeq (PSet false 0 (v 1)) (PSet false 1 (v 2)))))).
Example C87_ex1 : proper euclid /\ same_store (c := c256_64) zstart (@start c256_64) /\
  let g := Z.gcd (3 ^ 60 * 2 ^ 100) (3 ^ 50 * 10 ^ 30) in
  zshow (zexec (@BITS c256_64) (@chk c256_64) sure 300 euclid zstart) false 0 = Done g /\
  show (c := c256_64) (exec (@corrected c256_64) 300 euclid (@start c256_64)) false 0 = Ok g /\
  show (c := c256_32) (exec (@corrected c256_32) 300 euclid (@start c256_32)) false 0 = Ok g /\
  show (c := c256_64) (exec (@published c256_64) 300 euclid (@start c256_64)) false 0 = Ok g /\
  show (c := c256_64) (exec (@corrected c256_64) 20 euclid (@start c256_64)) false 0 = OutOfFuel.
Proof. split; [cbn; repeat split; lia|]. split; [apply start_same; apply valid_c256_64|]. vm_compute. repeat split. Qed.

(** A checked product that does not fit: the published [checked_mul] accepts it. *)
Definition product : prog :=
  PChecked true CMul 0 (EOp2 true Add (EOp1 true (Shl 254) (ELit true 1)) (ELit true 1)) (ELit true (-2))
    (PSet true 1 (ELit true 1)) (PSet true 1 (ELit true (-1))).
Example C87_ex2 : proper product /\ let m M := exec M 9 product (@start c256_64) in
  zexec (@BITS c256_64) (@chk c256_64) (@known_defects c256_64) 9 product zstart = Unknown /\
  show (c := c256_64) (m (@corrected c256_64)) true 1 = Ok (-1) /\ show (c := c256_64) (m (@published c256_64)) true 1 = Ok 1 /\
  show (c := c256_64) (m (@published c256_64)) true 0 = Ok (2 ^ 255 - 2).
Proof. split; [cbn; repeat split; lia|]. vm_compute. repeat split. Qed.

(** Both sides of the list. *)
Example C87_ex7 : let x := @ofZ c256_64 (- 2 ^ 255) in let y := @ofZ c256_64 (-1) in
  @bad2 (@known_defects c256_64) true DivFloor (- 2 ^ 255) (-1) = true /\ @s_div_floor c256_64 x y = Ok x /\
  @bad2 (@known_defects c256_64) true Div (- 2 ^ 255) (-1) = false /\ @op_div c256_64 true x y = Panic /\
  @bad1 (@known_defects c256_64) false TryCast (2 ^ 255 - 1) = true /\ @bad1 (@known_defects c256_64) false TryCast (2 ^ 255 - 2) = false.
Proof. vm_compute. repeat split. Qed.
(** A plain program: Fibonacci numbers until they no longer fit.  The first that
    does not is the 370th. *)
Definition fibonacci : prog :=
  PSeq (PSet false 1 (n 1))
  (PWhile (BEq false (v 3) (n 0))
    (POverflowing false OAdd 2 (v 0) (v 1) (PSet false 3 (n 1))
       (PSeq (PSet false 0 (v 1)) (PSeq (PSet false 1 (v 2)) (PSet false 4 (EOp2 false Add (v 4) (n 1))))))).
Example C87_ex3 : proper fibonacci /\ plain fibonacci /\
  show (c := c256_64) (exec (@published c256_64) 400 fibonacci (@start c256_64)) false 4 = Ok 369 /\
  show (c := c256_32) (exec (@published c256_32) 400 fibonacci (@start c256_32)) false 4 = Ok 369 /\
  zshow (zexec (@BITS c256_64) (@chk c256_64) sure 400 fibonacci zstart) false 4 = Done 369.
Proof. split; [cbn; repeat split; lia|]. split; [cbn; repeat split; lia|]. vm_compute. repeat split. Qed.
(** A panic foreseen, and an endless loop. *)
Example C87_ex4 : let p := PSet false 0 (EOp2 false Sub (n 1) (n 2)) in let q := PWhile (BEq false (v 0) (v 0)) PSkip in
  exec (@published c256_64) 9 p (@start c256_64) = Panic /\ zexec (@BITS c256_64) true sure 9 p zstart = Panicked /\
  zshow (zexec (@BITS c256_64) false sure 9 p zstart) false 0 = Done (2 ^ 256 - 1) /\
  show (c := c512_32) (exec (@published c512_32) 9 p (@start c512_32)) false 0 = Ok (2 ^ 512 - 1) /\
  exec (@published c256_64) 99 q (@start c256_64) = OutOfFuel.
Proof. vm_compute. repeat split. Qed.
Example C87_ex5 : same_values c256_64 c256_32 (@start c256_64) (@start c256_32).
Proof.
  intros sg i. split; [apply (wf_ofZ (c := c256_64) valid_c256_64)|]. split; [apply (wf_ofZ (c := c256_32) valid_c256_32)|].
  destruct sg; vm_compute; reflexivity.
Qed.
Example C87_ex6 : exec (@published c256_64) (400 + 50) fibonacci (@start c256_64) = exec (@published c256_64) 400 fibonacci (@start c256_64).
Proof.
  apply C87_fuel. intros E. assert (F : show (c := c256_64) (exec (@published c256_64) 400 fibonacci (@start c256_64)) false 4 = Ok 369) by (vm_compute; reflexivity).
  rewrite E in F. discriminate.
Qed.

(** ** C88 *)

(** [cmp], [partial_cmp] and the four operators follow the order of the integers. *)
Theorem C88_order : forall (c : Cfg) sg x y, Valid -> wf x -> wf y ->
  ord_cmp sg x y = Ok (number sg x ?= number sg y) /\
  ord_partial_cmp sg x y = Ok (Some (number sg x ?= number sg y)) /\
  ord_lt sg x y = Ok (number sg x <? number sg y) /\ ord_le sg x y = Ok (number sg x <=? number sg y) /\
  ord_gt sg x y = Ok (number sg y <? number sg x) /\ ord_ge sg x y = Ok (number sg y <=? number sg x).
Proof.
  intros c sg x y HV Hx Hy. unfold ord_partial_cmp, ord_cmp, ord_lt, ord_le, ord_gt, ord_ge.
  rewrite (cmp_const_ok HV), (lt_const_ok HV), (le_const_ok HV), (gt_const_ok HV), (ge_const_ok HV) by auto. repeat split.
Qed.
(** [max] and [min], in both spellings, give one of their arguments. *)
Theorem C88_max_min : forall (c : Cfg) sg x y, Valid -> wf x -> wf y -> exists hi lo,
  ord_max sg x y = Ok hi /\ ord_max_lt sg x y = Ok hi /\ ord_min sg x y = Ok lo /\ ord_min_lt sg x y = Ok lo /\
  number sg hi = Z.max (number sg x) (number sg y) /\ number sg lo = Z.min (number sg x) (number sg y) /\
  ((hi = x /\ lo = y) \/ (hi = y /\ lo = x)).
Proof.
  intros c sg x y HV Hx Hy. destruct (C88_order c sg x y HV Hx Hy) as (A & _ & _). destruct (C88_order c sg y x HV Hy Hx) as (_ & _ & B & _).
  unfold ord_max, ord_max_lt, ord_min, ord_min_lt. rewrite A, B. cbn [bind].
  destruct (Z.compare_spec (number sg x) (number sg y)); destruct (Z.ltb_spec (number sg y) (number sg x)); try lia.
  - exists y, x. repeat split; try lia. auto.
  - exists y, x. repeat split; try lia. auto.
  - exists x, y. repeat split; try lia. auto.
Qed.
(** [clamp] panics exactly for bounds in the wrong order, and otherwise gives the
    nearest value between them: one of its three arguments. *)
Theorem C88_clamp : forall (c : Cfg) sg x lo hi, Valid -> wf x -> wf lo -> wf hi ->
  (number sg hi < number sg lo -> ord_clamp sg x lo hi = Panic) /\
  (number sg lo <= number sg hi -> exists r, ord_clamp sg x lo hi = Ok r /\ (r = x \/ r = lo \/ r = hi) /\
     number sg r = Z.max (number sg lo) (Z.min (number sg x) (number sg hi)) /\
     number sg lo <= number sg r <= number sg hi /\
     forall w, number sg lo <= w <= number sg hi -> Z.abs (number sg r - number sg x) <= Z.abs (w - number sg x)).
Proof.
  intros c sg x lo hi HV Hx Hl Hh. destruct (C88_order c sg lo hi HV Hl Hh) as (_ & _ & _ & A & _). destruct (C88_order c sg x lo HV Hx Hl) as (_ & _ & B & _).
  destruct (C88_order c sg x hi HV Hx Hh) as (_ & _ & _ & _ & C & _). unfold ord_clamp. rewrite A, B, C. cbn [bind assert_].
  destruct (Z.leb_spec (number sg lo) (number sg hi)); split; intros H'; try lia; cbn [assert_ bind]; [|reflexivity].
  destruct (Z.ltb_spec (number sg x) (number sg lo)); [exists lo; repeat split; intros; try lia; auto|].
  destruct (Z.ltb_spec (number sg hi) (number sg x)); cbn [bind]; [exists hi|exists x]; repeat split; intros; try lia; auto.
Qed.
Example C88_ex : let a := ofZ (c := c256_64) (-5) in let b := ofZ (c := c256_64) (2 ^ 200) in let z := ofZ (c := c256_64) 0 in
  ord_max (c := c256_64) true a b = Ok b /\ ord_max (c := c256_64) false a b = Ok a /\
  ord_clamp (c := c256_64) true a z b = Ok z /\ ord_clamp (c := c256_64) false a z b = Ok b /\
  ord_clamp (c := c256_64) true z b a = Panic /\ ord_clamp (c := c256_64) false z b a = Ok b.
Proof. vm_compute. repeat split. Qed.

(** ** Assumptions (each must print "Closed under the global context") *)

Print Assumptions C87_corrected.
Print Assumptions C87_decided.
Print Assumptions C87_published.
Print Assumptions C87_list.
Print Assumptions C87_plain.
Print Assumptions C87_limb_size.
Print Assumptions C87_fuel.
Print Assumptions C88_order.
Print Assumptions C88_max_min.
Print Assumptions C88_clamp.
