(** * A small language of client programs

    Programs with variables of the unsigned and the signed type, expressions,
    conditions, assignments, branches on [Option]s and overflow flags, and loops.
    The interpreter takes the operations as a parameter: those of the code as
    published, or as corrected (PropsLang.v).  [zeval]/[zexec] give the same
    programs their meaning over the integers; they mention no limb and no
    function of the model. *)

Require Import ZArith List Bool.
From Verif Require Import Prim Spec.
Import ListNotations.
Local Open Scope Z_scope.

(** ** Syntax *)

Inductive op1 := Neg | Not | Abs | UnsignedAbs | Signum | Cast | TryCast | Shl (k : Z) | Shr (k : Z) | Pow (e : Z).
Inductive op2 := Add | Sub | Mul | Div | Rem | And | Or | Xor | ShlBy | ShrBy
  | DivEuclid | RemEuclid | DivFloor | DivCeil | Midpoint | AbsDiff | Max | Min
  | WrappingAdd | WrappingSub | WrappingMul | SaturatingAdd | SaturatingSub | SaturatingMul.
(** [checked_*] *)
Inductive opc := CAdd | CSub | CMul | CDiv | CRem | CDivEuclid | CRemEuclid.
(** [overflowing_*] *)
Inductive opo := OAdd | OSub | OMul.

(** The type of a result: [true] for the signed type. *)
Definition ty1 (o : op1) (sg : bool) : bool :=
  match o with UnsignedAbs => false | Cast | TryCast => negb sg | _ => sg end.
Definition ty2 (o : op2) (sg : bool) : bool := match o with AbsDiff => false | _ => sg end.

Inductive expr : bool -> Type :=
  | EVar (sg : bool) (i : nat) : expr sg
  | ELit (sg : bool) (v : Z) : expr sg
  | EOp1 (sg : bool) (o : op1) (a : expr sg) : expr (ty1 o sg)
  | EOp2 (sg : bool) (o : op2) (a b : expr sg) : expr (ty2 o sg).
Inductive cond : Type :=
  | BEq (sg : bool) (a b : expr sg) | BLt (sg : bool) (a b : expr sg) | BLe (sg : bool) (a b : expr sg)
  | BNot (a : cond) | BAnd (a b : cond).
Inductive prog : Type :=
  | PSkip
  | PSet (sg : bool) (i : nat) (e : expr sg)
  | PSeq (p q : prog)
  | PIf (b : cond) (p q : prog)
  | PWhile (b : cond) (p : prog)
  (** [if let Some(v) = a.checked_op(b) { i = v; p } else { q }] *)
  | PChecked (sg : bool) (o : opc) (i : nat) (a b : expr sg) (p q : prog)
  (** [let (v, f) = a.overflowing_op(b); i = v; if f { p } else { q }] *)
  | POverflowing (sg : bool) (o : opo) (i : nat) (a b : expr sg) (p q : prog).

(** What the type checker of the client's language sees to: the methods of the
    signed type are called on it only, shift amounts and exponents are [u32], the
    literals are [u128] and [i128]. *)
Definition proper1 (sg : bool) (o : op1) : Prop :=
  match o with
  | Neg | Abs | UnsignedAbs | Signum => sg = true
  | Shl k | Shr k | Pow k => 0 <= k < 2 ^ 32
  | _ => True
  end.
Fixpoint proper_e {sg : bool} (e : expr sg) : Prop :=
  match e with
  | EVar _ _ => True
  | ELit s v => if s then fits_s 128 v else fits_u 128 v
  | EOp1 s o a => proper1 s o /\ proper_e a
  | EOp2 _ _ a b => proper_e a /\ proper_e b
  end.
Fixpoint proper_b (b : cond) : Prop :=
  match b with
  | BEq _ x y | BLt _ x y | BLe _ x y => proper_e x /\ proper_e y
  | BNot a => proper_b a
  | BAnd a b => proper_b a /\ proper_b b
  end.
Fixpoint proper (p : prog) : Prop :=
  match p with
  | PSkip => True
  | PSet _ _ e => proper_e e
  | PSeq p q => proper p /\ proper q
  | PIf b p q => proper_b b /\ proper p /\ proper q
  | PWhile b p => proper_b b /\ proper p
  | PChecked _ _ _ x y p q | POverflowing _ _ _ x y p q => (proper_e x /\ proper_e y) /\ proper p /\ proper q
  end.

(** ** Running *)

Record ops := {
  lit : bool -> Z -> res (list Z);
  run1 : bool -> op1 -> list Z -> res (list Z);
  run2 : bool -> op2 -> list Z -> list Z -> res (list Z);
  runc : bool -> opc -> list Z -> list Z -> res (option (list Z));
  runo : bool -> opo -> list Z -> list Z -> res (list Z * bool);
  run_eq : bool -> list Z -> list Z -> res bool;
  run_lt : bool -> list Z -> list Z -> res bool;
  run_le : bool -> list Z -> list Z -> res bool }.

Definition store (A : Type) := bool -> nat -> A.
Definition update {A} (s : store A) (sg : bool) (i : nat) (v : A) : store A :=
  fun sg' j => if Bool.eqb sg sg' && Nat.eqb i j then v else s sg' j.

Section Run.
Variable M : ops.
Fixpoint eval (s : store (list Z)) {sg : bool} (e : expr sg) : res (list Z) :=
  match e with
  | EVar g i => Ok (s g i)
  | ELit g v => lit M g v
  | EOp1 g o a => let* x := eval s a in run1 M g o x
  | EOp2 g o a b => let* x := eval s a in let* y := eval s b in run2 M g o x y
  end.
Fixpoint test (s : store (list Z)) (b : cond) : res bool :=
  match b with
  | BEq g a b => let* x := eval s a in let* y := eval s b in run_eq M g x y
  | BLt g a b => let* x := eval s a in let* y := eval s b in run_lt M g x y
  | BLe g a b => let* x := eval s a in let* y := eval s b in run_le M g x y
  | BNot a => let* r := test s a in Ok (negb r)
  | BAnd a b => let* r := test s a in if r then test s b else Ok false
  end.
(** [fuel] bounds the depth of the execution; running out of it is reported. *)
Fixpoint exec (fuel : nat) (p : prog) (s : store (list Z)) : res (store (list Z)) :=
  match fuel with
  | O => OutOfFuel
  | S fuel =>
    match p with
    | PSkip => Ok s
    | PSet g i e => let* v := eval s e in Ok (update s g i v)
    | PSeq p q => let* s := exec fuel p s in exec fuel q s
    | PIf b p q => let* r := test s b in if r then exec fuel p s else exec fuel q s
    | PWhile b body => let* r := test s b in
        if r then let* s := exec fuel body s in exec fuel (PWhile b body) s else Ok s
    | PChecked g o i a b p q => let* x := eval s a in let* y := eval s b in let* r := runc M g o x y in
        match r with Some v => exec fuel p (update s g i v) | None => exec fuel q s end
    | POverflowing g o i a b p q => let* x := eval s a in let* y := eval s b in let* (v, f) := runo M g o x y in
        if f : bool then exec fuel p (update s g i v) else exec fuel q (update s g i v)
    end
  end.
End Run.

(** ** Meaning *)

(** [Unknown]: nothing is claimed. *)
Inductive outcome (A : Type) := Done (a : A) | Panicked | Unfinished | Unknown.
Arguments Done {A} a.
Arguments Panicked {A}.
Arguments Unfinished {A}.
Arguments Unknown {A}.
Definition and_then {A B} (m : outcome A) (k : A -> outcome B) : outcome B :=
  match m with Done a => k a | Panicked => Panicked | Unfinished => Unfinished | Unknown => Unknown end.

Section Meaning.
(** The width of the types, and whether overflow checks are on. *)
Variable bits : Z.
Variable checks : bool.

Definition inside (sg : bool) (v : Z) : bool :=
  if sg then (- 2 ^ (bits - 1) <=? v) && (v <? 2 ^ (bits - 1)) else (0 <=? v) && (v <? 2 ^ bits).
Definition reduced (sg : bool) (v : Z) : Z :=
  if sg then (v + 2 ^ (bits - 1)) mod 2 ^ bits - 2 ^ (bits - 1) else v mod 2 ^ bits.
Definition pinned (sg : bool) (v : Z) : Z :=
  if sg then Z.max (- 2 ^ (bits - 1)) (Z.min (2 ^ (bits - 1) - 1) v) else Z.max 0 (Z.min (2 ^ bits - 1) v).
(** a result outside the range: refused, or reduced without checks *)
Definition ranged (sg : bool) (v : Z) : outcome Z :=
  if inside sg v then Done v else if checks then Panicked else Done (reduced sg v).
(** the shift amount in force *)
Definition amount (k : Z) (raw : Z) : outcome Z :=
  if (0 <=? k) && (k <? bits) then Done k else if checks then Panicked else Done (raw mod 2 ^ 32 mod bits).
(** MIN / -1 *)
Definition min_m1 (sg : bool) (x y : Z) : bool := sg && (x =? - 2 ^ (bits - 1)) && (y =? -1).

Definition exact1 (sg : bool) (o : op1) (x : Z) : outcome Z :=
  match o with
  | Neg => ranged sg (- x)
  | Not => Done (if sg then - x - 1 else 2 ^ bits - 1 - x)
  | Abs => ranged sg (Z.abs x)
  | UnsignedAbs => Done (Z.abs x)
  | Signum => Done (Z.sgn x)
  | Cast => Done (reduced (negb sg) x)
  | TryCast => if inside (negb sg) x then Done x else Panicked
  | Shl k => and_then (amount k k) (fun k => Done (reduced sg (x * 2 ^ k)))
  | Shr k => and_then (amount k k) (fun k => Done (x / 2 ^ k))
  | Pow e => ranged sg (x ^ e)
  end.
Definition exact2 (sg : bool) (o : op2) (x y : Z) : outcome Z :=
  match o with
  | Add => ranged sg (x + y)
  | Sub => ranged sg (x - y)
  | Mul => ranged sg (x * y)
  | Div => if y =? 0 then Panicked else ranged sg (Z.quot x y)
  | Rem => if (y =? 0) || (checks && min_m1 sg x y) then Panicked else Done (Z.rem x y)
  | And => Done (Z.land x y)
  | Or => Done (Z.lor x y)
  | Xor => Done (Z.lxor x y)
  | ShlBy => and_then (amount y (y mod 2 ^ bits)) (fun k => Done (reduced sg (x * 2 ^ k)))
  | ShrBy => and_then (amount y (y mod 2 ^ bits)) (fun k => Done (x / 2 ^ k))
  | DivEuclid => if (y =? 0) || min_m1 sg x y then Panicked else Done (Z.sgn y * (x / Z.abs y))
  | RemEuclid => if (y =? 0) || min_m1 sg x y then Panicked else Done (x mod Z.abs y)
  | DivFloor => if (y =? 0) || min_m1 sg x y then Panicked else Done (x / y)
  | DivCeil => if (y =? 0) || min_m1 sg x y then Panicked else Done (- (- x / y))
  | Midpoint => Done ((x + y) / 2)
  | AbsDiff => Done (Z.abs (x - y))
  | Max => Done (Z.max x y)
  | Min => Done (Z.min x y)
  | WrappingAdd => Done (reduced sg (x + y))
  | WrappingSub => Done (reduced sg (x - y))
  | WrappingMul => Done (reduced sg (x * y))
  | SaturatingAdd => Done (pinned sg (x + y))
  | SaturatingSub => Done (pinned sg (x - y))
  | SaturatingMul => Done (pinned sg (x * y))
  end.
Definition within (sg : bool) (v : Z) : outcome (option Z) := Done (if inside sg v then Some v else None).
Definition dividing (sg : bool) (x y v : Z) : outcome (option Z) :=
  Done (if (y =? 0) || min_m1 sg x y then None else Some v).
Definition exactc (sg : bool) (o : opc) (x y : Z) : outcome (option Z) :=
  match o with
  | CAdd => within sg (x + y)
  | CSub => within sg (x - y)
  | CMul => within sg (x * y)
  | CDiv => dividing sg x y (Z.quot x y)
  | CRem => dividing sg x y (Z.rem x y)
  | CDivEuclid => dividing sg x y (Z.sgn y * (x / Z.abs y))
  | CRemEuclid => dividing sg x y (x mod Z.abs y)
  end.
Definition exacto (sg : bool) (o : opo) (x y : Z) : outcome (Z * bool) :=
  let v := match o with OAdd => x + y | OSub => x - y | OMul => x * y end in
  Done (reduced sg v, negb (inside sg v)).

(** The inputs about which nothing is claimed. *)
Record doubts := {
  bad1 : bool -> op1 -> Z -> bool;
  bad2 : bool -> op2 -> Z -> Z -> bool;
  badc : bool -> opc -> Z -> Z -> bool;
  bado : bool -> opo -> Z -> Z -> bool }.
Definition sure : doubts :=
  {| bad1 := fun _ _ _ => false; bad2 := fun _ _ _ _ => false; badc := fun _ _ _ _ => false; bado := fun _ _ _ _ => false |}.

Variable D : doubts.
Definition unless {A} (b : bool) (m : outcome A) : outcome A := if b then Unknown else m.
Fixpoint zeval (s : store Z) {sg : bool} (e : expr sg) : outcome Z :=
  match e with
  | EVar g i => Done (s g i)
  | ELit g v => Done v
  | EOp1 g o a => and_then (zeval s a) (fun x => unless (bad1 D g o x) (exact1 g o x))
  | EOp2 g o a b => and_then (zeval s a) (fun x => and_then (zeval s b) (fun y => unless (bad2 D g o x y) (exact2 g o x y)))
  end.
Fixpoint ztest (s : store Z) (b : cond) : outcome bool :=
  match b with
  | BEq g a b => and_then (zeval s a) (fun x => and_then (zeval s b) (fun y => Done (x =? y)))
  | BLt g a b => and_then (zeval s a) (fun x => and_then (zeval s b) (fun y => Done (x <? y)))
  | BLe g a b => and_then (zeval s a) (fun x => and_then (zeval s b) (fun y => Done (x <=? y)))
  | BNot a => and_then (ztest s a) (fun r => Done (negb r))
  | BAnd a b => and_then (ztest s a) (fun r => if r : bool then ztest s b else Done false)
  end.
Fixpoint zexec (fuel : nat) (p : prog) (s : store Z) : outcome (store Z) :=
  match fuel with
  | O => Unfinished
  | S fuel =>
    match p with
    | PSkip => Done s
    | PSet g i e => and_then (zeval s e) (fun v => Done (update s g i v))
    | PSeq p q => and_then (zexec fuel p s) (fun s => zexec fuel q s)
    | PIf b p q => and_then (ztest s b) (fun r => if r : bool then zexec fuel p s else zexec fuel q s)
    | PWhile b body => and_then (ztest s b) (fun r =>
        if r : bool then and_then (zexec fuel body s) (fun s => zexec fuel (PWhile b body) s) else Done s)
    | PChecked g o i a b p q =>
        and_then (zeval s a) (fun x => and_then (zeval s b) (fun y => and_then (unless (badc D g o x y) (exactc g o x y)) (fun r =>
          match r with Some v => zexec fuel p (update s g i v) | None => zexec fuel q s end)))
    | POverflowing g o i a b p q =>
        and_then (zeval s a) (fun x => and_then (zeval s b) (fun y => and_then (unless (bado D g o x y) (exacto g o x y)) (fun r =>
          let '(v, f) := r in if f : bool then zexec fuel p (update s g i v) else zexec fuel q (update s g i v))))
    end
  end.
End Meaning.
