(** * Client programs that read and write text

    The programs of Lang.v, with lines of input to read numbers from and lines of
    output to print them on.  As there, the interpreter takes the operations as a
    parameter, and [zrun] gives the same programs their meaning over the
    integers and over texts; it mentions no limb and no function of the model.
    Lines are lists of byte values. *)

Require Import ZArith List Bool.
From Verif Require Import Prim Spec TextSpec Lang.
Import ListNotations.
Local Open Scope Z_scope.

(** ** Syntax *)

(** How a number is printed: [{}], [{:b}], [{:o}], [{:x}], [{:X}], [{:e}],
    [{:E}], [to_str_radix]. *)
Inductive style := Decimal | Binary | Octal | LowerHex | UpperHex | LowerExp | UpperExp | InRadix (radix : Z).
Inductive tprog : Type :=
  | TDo (p : prog)
  | TSeq (p q : tprog)
  | TIf (b : cond) (p q : tprog)
  | TWhile (b : cond) (p : tprog)
  (** [match lines.next() { Some(l) => match l.parse() { Ok(v) => { i = v; p }, Err(_) => q }, None => r }],
      or with [T::from_str_radix(l, radix)] for [parse] *)
  | TRead (sg : bool) (radix : option Z) (i : nat) (p q r : tprog)
  (** [println!("{…}", e)] *)
  | TPrint (sg : bool) (o : style) (e : expr sg).
Definition proper_style (o : style) : Prop := match o with InRadix r => 0 <= r < 2 ^ 32 | _ => True end.
Fixpoint tproper (p : tprog) : Prop :=
  match p with
  | TDo p => proper p
  | TSeq p q => tproper p /\ tproper q
  | TIf b p q => proper_b b /\ tproper p /\ tproper q
  | TWhile b p => proper_b b /\ tproper p
  | TRead _ radix _ p q r => match radix with Some b => 0 <= b < 2 ^ 32 | None => True end /\ tproper p /\ tproper q /\ tproper r
  | TPrint _ o e => proper_style o /\ proper_e e
  end.

(** ** Running *)

Definition line := list Z.
Record state (A : Type) := State { vars : store A; input : list line; output : list line }.
Arguments State {A} vars input output.
Arguments vars {A} s.
Arguments input {A} s.
Arguments output {A} s.

Record texts := {
  run_read : bool -> option Z -> line -> res (option (list Z));
  run_print : bool -> style -> list Z -> res line }.

Section Run.
Variable M : ops.
Variable T : texts.
Fixpoint trun (fuel : nat) (p : tprog) (s : state (list Z)) : res (state (list Z)) :=
  match fuel with
  | O => OutOfFuel
  | S fuel =>
    match p with
    | TDo p => let* v := exec M fuel p (vars s) in Ok (State v (input s) (output s))
    | TSeq p q => let* s := trun fuel p s in trun fuel q s
    | TIf b p q => let* r := test M (vars s) b in if r then trun fuel p s else trun fuel q s
    | TWhile b body => let* r := test M (vars s) b in
        if r then let* s := trun fuel body s in trun fuel (TWhile b body) s else Ok s
    | TRead g radix i p q r =>
        match input s with
        | [] => trun fuel r s
        | l :: ls => let* v := run_read T g radix l in
            match v with
            | Some v => trun fuel p (State (update (vars s) g i v) ls (output s))
            | None => trun fuel q (State (vars s) ls (output s))
            end
        end
    | TPrint g o e => let* v := eval M (vars s) e in let* l := run_print T g o v in
        Ok (State (vars s) (input s) (output s ++ [l]))
    end
  end.
End Run.

(** ** Meaning *)

Section Meaning.
Variable bits : Z.
Variable checks : bool.

Definition radix_ok (radix : Z) : bool := (2 <=? radix) && (radix <=? 36).
(** the number a line stands for *)
Definition magnitude (radix : Z) (s : line) : option Z := match s with [] => None | _ => numval radix s end.
Definition reading (sg : bool) (radix : Z) (s : line) : option Z :=
  match s with
  | ch :: t => if ch =? 43 then magnitude radix t
               else if sg && (ch =? 45) then option_map Z.opp (magnitude radix t)
               else magnitude radix s
  | [] => None
  end.
Definition zread (sg : bool) (radix : option Z) (s : line) : outcome (option Z) :=
  let r := match radix with Some r => r | None => 10 end in
  if radix_ok r then
    Done (match reading sg r s with Some v => if inside bits sg v then Some v else None | None => None end)
  else Panicked.

(** the digits of a number, most significant first *)
Definition symbol (d : Z) : Z := if d <? 10 then 48 + d else 55 + d.
Fixpoint digits_before (fuel : nat) (radix v : Z) (after : line) : line :=
  match fuel with
  | O => after
  | S fuel => let after := symbol (v mod radix) :: after in
              if v <? radix then after else digits_before fuel radix (v / radix) after
  end.
Definition number_text (radix v : Z) : line := digits_before (S (Z.to_nat (Z.log2 v))) radix v [].
Definition lower_case (ch : Z) : Z := if (65 <=? ch) && (ch <=? 90) then ch + 32 else ch.
Definition minus (v : Z) : line := if v <? 0 then [45] else [].
(** one digit, a point if others follow, the exponent *)
Definition exponent_text (tag v : Z) : line :=
  match number_text 10 v with
  | d :: t => d :: match t with [] => [] | _ => 46 :: t end ++ tag :: number_text 10 (Z.of_nat (length t))
  | [] => []
  end.
Definition zprint (o : style) (v : Z) : outcome line :=
  match o with
  | Decimal => Done (minus v ++ number_text 10 (Z.abs v))
  | Binary => Done (number_text 2 (v mod 2 ^ bits))
  | Octal => Done (number_text 8 (v mod 2 ^ bits))
  | LowerHex => Done (map lower_case (number_text 16 (v mod 2 ^ bits)))
  | UpperHex => Done (number_text 16 (v mod 2 ^ bits))
  | LowerExp => Done (minus v ++ exponent_text 101 (Z.abs v))
  | UpperExp => Done (minus v ++ exponent_text 69 (Z.abs v))
  | InRadix r => if radix_ok r then Done (minus v ++ number_text r (Z.abs v)) else Panicked
  end.

(** The lines and numbers about which nothing is claimed. *)
Record text_doubts := {
  bad_read : bool -> option Z -> line -> bool;
  bad_print : bool -> style -> Z -> bool }.
Definition text_sure : text_doubts := {| bad_read := fun _ _ _ => false; bad_print := fun _ _ _ => false |}.

Variable D : doubts.
Variable E : text_doubts.
Fixpoint zrun (fuel : nat) (p : tprog) (s : state Z) : outcome (state Z) :=
  match fuel with
  | O => Unfinished
  | S fuel =>
    match p with
    | TDo p => and_then (zexec bits checks D fuel p (vars s)) (fun v => Done (State v (input s) (output s)))
    | TSeq p q => and_then (zrun fuel p s) (fun s => zrun fuel q s)
    | TIf b p q => and_then (ztest bits checks D (vars s) b) (fun r => if r : bool then zrun fuel p s else zrun fuel q s)
    | TWhile b body => and_then (ztest bits checks D (vars s) b) (fun r =>
        if r : bool then and_then (zrun fuel body s) (fun s => zrun fuel (TWhile b body) s) else Done s)
    | TRead g radix i p q r =>
        match input s with
        | [] => zrun fuel r s
        | l :: ls => and_then (unless (bad_read E g radix l) (zread g radix l)) (fun v =>
            match v with
            | Some v => zrun fuel p (State (update (vars s) g i v) ls (output s))
            | None => zrun fuel q (State (vars s) ls (output s))
            end)
        end
    | TPrint g o e => and_then (zeval bits checks D (vars s) e) (fun v =>
        and_then (unless (bad_print E g o v) (zprint o v)) (fun l =>
        Done (State (vars s) (input s) (output s ++ [l]))))
    end
  end.
End Meaning.
