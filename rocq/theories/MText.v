(** * Reading and running the source text

    The definitions of MAdd.v, MMul.v and MShift.v are a translation by hand.
    Here the translation is done by a program: a lexer, a macro expander, a
    parser and an evaluator for the part of Rust that src/math is written in.
    They run on the text of the files themselves (SrcText.v), and PropsSrc*.v
    prove that what the text says is what the hand translation says.

    This file is not a model of code in /repo.  It describes Rust: the
    grammar, [macro_rules!] and the meaning of statements; the operations on
    machine integers are those of Prim.v.  It is as small as the files allow,
    and anything not understood is [OutOfFuel], never a value:
    - an integer literal has the type of what it is combined with; a variable
      initialised with one keeps the type open ([IL]), and two open integers
      are added and subtracted as [usize];
    - an expression changes no variable (the files have no other);
    - a reference is the value it points to;
    - the machine is little-endian, so [ne_index!(a[i])] (src/util.rs 20-28)
      is [a[i]];
    - [where] clauses, traits, structs, closures and [match] are not read. *)

Require Import ZArith List Bool String Ascii.
From Verif Require Import Prim.
Import ListNotations.
Local Open Scope Z_scope.
Local Open Scope string_scope.

(** ** Tokens *)
(** symbols and reserved words; the macros built into the files count as words *)
Inductive sym :=
| LP | RP | LB | RB | LC | RC | Comma | Semi | Colon | PathSep | Arrow | FatArrow | Dot | Dollar | Hash | Quest | Bang | Amp | Star | Equ | Lt_ | Gt_ | Plus | Minus | Slash | Percent | Caret | Bar | EqEq | Ne_ | Le_ | Ge_ | AndAnd | OrOr | Shl_ | Shr_ | PlusEq | MinusEq | StarEq | BarEq | AmpEq | CaretEq | Quote | At.
Inductive kw :=
| KIf | KElse | KWhile | KLet | KMut | KConst | KFn | KPub | KUse | KAs | KReturn | KBreak | KTrue | KFalse | KAssert | KDebugAssert | KNeIndex | KMacroRules.
Scheme Equality for sym.
Scheme Equality for kw.
Definition sym_eqb := sym_beq.
Definition kw_eqb := kw_beq.
Inductive tok := Id (s : string) | Kw (k : kw) | Num (z : Z) | Sym (s : sym) | Str (s : string).
Definition sym_names : list (string * sym) :=
  [("(", LP); (")", RP); ("[", LB); ("]", RB); ("{", LC); ("}", RC); (",", Comma); (";", Semi); (":", Colon); ("::", PathSep); ("->", Arrow); ("=>", FatArrow); (".", Dot); ("$", Dollar); ("#", Hash); ("?", Quest); ("!", Bang); ("&", Amp); ("*", Star); ("=", Equ); ("<", Lt_); (">", Gt_); ("+", Plus); ("-", Minus); ("/", Slash); ("%", Percent); ("^", Caret); ("|", Bar); ("==", EqEq); ("!=", Ne_); ("<=", Le_); (">=", Ge_); ("&&", AndAnd); ("||", OrOr); ("<<", Shl_); (">>", Shr_); ("+=", PlusEq); ("-=", MinusEq); ("*=", StarEq); ("|=", BarEq); ("&=", AmpEq); ("^=", CaretEq); ("'", Quote); ("@", At)].
Definition kw_names : list (string * kw) :=
  [("if", KIf); ("else", KElse); ("while", KWhile); ("let", KLet); ("mut", KMut); ("const", KConst); ("fn", KFn); ("pub", KPub); ("use", KUse); ("as", KAs); ("return", KReturn); ("break", KBreak); ("true", KTrue); ("false", KFalse); ("assert", KAssert); ("debug_assert", KDebugAssert); ("ne_index", KNeIndex); ("macro_rules", KMacroRules)].
Fixpoint look {A} (l : list (string * A)) (x : string) : option A :=
  match l with [] => None | (y, v) :: r => if String.eqb x y then Some v else look r x end.
Definition word (s : string) : tok := 
  if String.eqb s "$" then Sym Dollar else match look kw_names s with Some k => Kw k | None => Id s end.
(** an unknown character becomes [At], which no rule below accepts *)
Definition symb (s : string) : tok := Sym (match look sym_names s with Some k => k | None => At end).


Definition is_digit (a : ascii) : bool := let n := nat_of_ascii a in (48 <=? n)%nat && (n <=? 57)%nat.
Definition is_letter (a : ascii) : bool :=
  let n := nat_of_ascii a in
  ((65 <=? n) && (n <=? 90))%nat || ((97 <=? n) && (n <=? 122))%nat || (n =? 95)%nat.
Definition is_word (a : ascii) : bool := is_digit a || is_letter a.
Definition is_space (a : ascii) : bool := (nat_of_ascii a <=? 32)%nat.
Definition digit (a : ascii) : Z := Z.of_nat (nat_of_ascii a) - 48.
Definition rev_string (s : string) : string :=
  (fix go (s acc : string) := match s with EmptyString => acc | String a r => go r (String a acc) end) s EmptyString.

(** whether two characters make one symbol *)
Definition is_pair (a b : ascii) : bool := match look sym_names (String a (String b EmptyString)) with Some _ => true | None => false end.

Inductive mode := MN | MI (acc : string) | MZ (z : Z) | MS (acc : string) | MC.
Definition flush (m : mode) : list tok :=
  match m with MI acc => [word (rev_string acc)] | MZ z => [Num z] | _ => [] end.
Definition nl : ascii := "010"%char.
(** A [$] belongs to the word that follows it.  [//] runs to the end of the line. *)
Fixpoint lex (m : mode) (s : string) {struct s} : list tok :=
  match s with
  | EmptyString => flush m
  | String a r =>
    match m with
    | MC => if Ascii.eqb a nl then lex MN r else lex MC r
    | MS acc => if Ascii.eqb a """" then Str (rev_string acc) :: lex MN r else lex (MS (String a acc)) r
    | MI acc =>
      if is_word a then lex (MI (String a acc)) r
      else flush m ++
        (if is_space a then lex MN r
         else if Ascii.eqb a """" then lex (MS "") r
         else if Ascii.eqb a "$" then lex (MI "$") r
         else match r with
              | String b r' =>
                if Ascii.eqb a "/" && Ascii.eqb b "/" then lex MC r'
                else if is_pair a b then symb (String a (String b EmptyString)) :: lex MN r'
                else symb (String a EmptyString) :: lex MN r
              | EmptyString => [symb (String a EmptyString)]
              end)
    | MZ z =>
      if is_digit a then lex (MZ (10 * z + digit a)) r
      else if Ascii.eqb a "_" then lex (MZ z) r
      else Num z ::
        (if is_space a then lex MN r
         else if is_letter a then lex (MI (String a EmptyString)) r
         else match r with
              | String b r' =>
                if is_pair a b then symb (String a (String b EmptyString)) :: lex MN r'
                else symb (String a EmptyString) :: lex MN r
              | EmptyString => [symb (String a EmptyString)]
              end)
    | MN =>
      if is_space a then lex MN r
      else if is_digit a then lex (MZ (digit a)) r
      else if is_letter a || Ascii.eqb a "$" then lex (MI (String a EmptyString)) r
      else if Ascii.eqb a """" then lex (MS "") r
      else match r with
           | String b r' =>
             if Ascii.eqb a "/" && Ascii.eqb b "/" then lex MC r'
             else if is_pair a b then symb (String a (String b EmptyString)) :: lex MN r'
             else symb (String a EmptyString) :: lex MN r
           | EmptyString => [symb (String a EmptyString)]
           end
    end
  end.
Definition tokens (s : string) : list tok := lex MN s.

Definition tok_eqb (a b : tok) : bool :=
  match a, b with
  | Id s, Id t => String.eqb s t
  | Num x, Num y => Z.eqb x y
  | Sym s, Sym t => sym_eqb s t
  | Kw s, Kw t => kw_eqb s t
  | Str s, Str t => String.eqb s t
  | _, _ => false
  end.
Definition opens (t : tok) : bool := match t with Sym (LP | LB | LC) => true | _ => false end.
Definition closes (t : tok) : bool := match t with Sym (RP | RB | RC) => true | _ => false end.
(** the tokens up to the bracket that closes depth [d], and those after it *)
Fixpoint to_close (d : nat) (ts : list tok) : list tok * list tok :=
  match ts with
  | [] => ([], [])
  | t :: r =>
    if closes t then
      match d with
      | O => ([], r)
      | S d' => let (a, b) := to_close d' r in (t :: a, b)
      end
    else let (a, b) := to_close (if opens t then S d else d) r in (t :: a, b)
  end.
(** the tokens up to a comma or arrow outside brackets *)
Fixpoint to_comma (d : nat) (ts : list tok) : list tok * list tok :=
  match ts with
  | [] => ([], [])
  | t :: r =>
    if (d =? 0)%nat && (tok_eqb t (Sym Comma) || tok_eqb t (Sym FatArrow)) then ([], ts)
    else
      let (a, b) := to_comma (if opens t then S d else if closes t then Nat.pred d else d) r in (t :: a, b)
  end.
(** what follows the next semicolon *)
Fixpoint past_semi (ts : list tok) : list tok :=
  match ts with [] => [] | t :: r => if tok_eqb t (Sym Semi) then r else past_semi r end.

(** ** Macros *)
Definition dollar (s : string) : bool :=
  match s with String a (String _ _) => Ascii.eqb a "$" | _ => false end.
Definition subst_t := list (string * list tok).
Fixpoint sget (s : subst_t) (x : string) : option (list tok) :=
  match s with [] => None | (y, v) :: r => if String.eqb x y then Some v else sget r x end.
Fixpoint substitute (s : subst_t) (ts : list tok) : list tok :=
  match ts with
  | [] => []
  | Id x :: r => (match sget s x with Some v => v | None => [Id x] end) ++ substitute s r
  | t :: r => t :: substitute s r
  end.
(** [$x:ident] takes one word, and other fragments run to the next comma or [=>]; a
    [$(,)?] at the end may take a comma *)
Definition opt_comma : list tok := [Sym Dollar; Sym LP; Sym Comma; Sym RP; Sym Quest].
Fixpoint prefix (l ts : list tok) : bool :=
  match l, ts with
  | [], _ => true
  | a :: l, b :: ts => tok_eqb a b && prefix l ts
  | _, [] => false
  end.
Fixpoint match_pat (pat ts : list tok) (s : subst_t) : option (subst_t * list tok) :=
  match pat with
  | [] => Some (s, ts)
  | p :: pr =>
    if prefix opt_comma pat then
      match ts with
      | [] => Some (s, [])
      | t :: r => if tok_eqb t (Sym Comma) then Some (s, r) else None
      end
    else
    match p, pr with
    | Id x, Sym Colon :: Id k :: pr' =>
      if negb (dollar x) then None
      else if String.eqb k "ident" then
        match ts with Id y :: r => match_pat pr' r ((x, [Id y]) :: s) | _ => None end
      else
        let (a, b) := to_comma 0 ts in
        match a with [] => None | _ => match_pat pr' b ((x, a) :: s) end
    | _, _ => match ts with t :: r => if tok_eqb p t then match_pat pr r s else None | [] => None end
    end
  end.
Fixpoint match_many (fuel : nat) (pat ts : list tok) : option (list subst_t) :=
  match fuel, ts with
  | _, [] => Some []
  | O, _ => None
  | S f, _ =>
    match match_pat pat ts [] with
    | Some (s, r) => match match_many f pat r with Some l => Some (s :: l) | None => None end
    | None => None
    end
  end.
Definition rule := (list tok * list tok)%type.
(** A pattern [$( .. )*] goes with a body [$( .. )*]. *)
Definition starred (ts : list tok) : option (list tok) :=
  if prefix [Sym Dollar; Sym LP] ts then
    let (a, r) := to_close 0 (tl (tl ts)) in
    match r with [t] => if tok_eqb t (Sym Star) then Some a else None | _ => None end
  else None.
Definition expand1 (ru : rule) (ts : list tok) : option (list tok) :=
  let (pat, body) := ru in
  match starred pat, starred body with
  | Some p, Some b =>
    match match_many (List.length ts) p ts with
    | Some l => Some (flat_map (fun s => substitute s b) l)
    | None => None
    end
  | _, _ =>
    match match_pat pat ts [] with
    | Some (s, []) => Some (substitute s body)
    | _ => None
    end
  end.
Fixpoint expand (rs : list rule) (ts : list tok) : option (list tok) :=
  match rs with
  | [] => None
  | ru :: r => match expand1 ru ts with Some v => Some v | None => expand r ts end
  end.
Definition macros := list (string * list rule).
Fixpoint mget (m : macros) (x : string) : option (list rule) :=
  match m with [] => None | (y, v) :: r => if String.eqb x y then Some v else mget r x end.
(** the rules inside [macro_rules! name { .. }] *)
Fixpoint rules (fuel : nat) (ts : list tok) : list rule :=
  match fuel with
  | O => []
  | S f =>
    match ts with
    | t :: r =>
      if opens t then
        let (p, r1) := to_close 0 r in
        match r1 with
        | Sym FatArrow :: t2 :: r2 => let (b, r3) := to_close 0 r2 in (p, b) :: rules f r3
        | _ => []
        end
      else rules f r
    | [] => []
    end
  end.

(** ** Syntax *)
Inductive typ := TName (s : string) | TArr (t : typ) (n : list tok) | TTup (l : list typ) | TUnk.
Inductive pat := PV (x : string) | PT (l : list pat).
Inductive expr :=
| ELit (z : Z)
| EBool (b : bool)
| EVar (x : string)
| EUn (op : sym) (a : expr)
| EBin (op : sym) (a b : expr)
| ECast (a : expr) (t : typ)
| EAssoc (t : typ) (x : string)
| ECall (f : string) (gs args : exprs)
| EMeth (a : expr) (m : string) (args : exprs)
| EIdx (a i : expr)
| ERep (a n : expr)
| EList (l : exprs)
| ETup (l : exprs)
| EIf (c : expr) (a b : blk)
| EBlk (b : blk)
with exprs := XNil | XCons (e : expr) (r : exprs)
with stmt :=
| SLet (p : pat) (t : option typ) (e : expr)
| SDecl (x : string) (t : typ)
| SAssign (p : pat) (e : expr)
| SOp (op : sym) (x : string) (e : expr)
| SSet (x : string) (i e : expr)
| SWhile (c : expr) (b : blk)
| SIf (c : expr) (a b : blk)
| SAssert (debug : bool) (e : expr)
| SBreak
| SReturn (e : expr)
| SExp (e : expr)
with blk := BNil | BCons (s : stmt) (r : blk).

Record fn := { f_name : string; f_gen : list string; f_par : list (string * typ); f_ret : typ; f_body : blk }.

(** ** Parser *)

Definition P (A : Type) := option (A * list tok).
Notation "'let?' ( x , r ) := m 'in' k" := (match m with Some (x, r) => k | None => None end)
  (at level 200, x ident, r ident, m at level 200, k at level 200).
Definition eat (s : sym) (ts : list tok) : option (unit * list tok) :=
  match ts with t :: r => if tok_eqb t (Sym s) then Some (tt, r) else None | [] => None end.

Fixpoint eats (l : list sym) (ts : list tok) : option (list tok) :=
  match l with
  | [] => Some ts
  | s :: l => match eat s ts with Some (_, r) => eats l r | None => None end
  end.
Notation "'let!' r := m 'in' k" := (match m with Some r => k | None => None end)
  (at level 200, r ident, m at level 200, k at level 200).

(** binding strength of the binary operators; [as] binds tighter than all of them *)
Definition level (s : sym) : option nat :=
  match s with
  | Star | Slash | Percent => Some 9%nat
  | Plus | Minus => Some 8%nat
  | Shl_ | Shr_ => Some 7%nat
  | Amp => Some 6%nat
  | Caret => Some 5%nat
  | Bar => Some 4%nat
  | EqEq | Ne_ | Lt_ | Gt_ | Le_ | Ge_ => Some 3%nat
  | AndAnd => Some 2%nat
  | OrOr => Some 1%nat
  | _ => None
  end.

Fixpoint p_typ (fuel : nat) (ts : list tok) : P typ :=
  match fuel with
  | O => None
  | S f =>
    match ts with
    | Sym Amp :: r => p_typ f r
    | Id x :: r => Some (TName x, r)
    | Sym LB :: r =>
      let? (t, r) := p_typ f r in
      let? (_u, r) := eat Semi r in
      let (n, r) := to_close 0 r in Some (TArr t n, r)
    | Sym LP :: r =>
      (fix go (k : nat) (acc : list typ) (r : list tok) : P typ :=
         match k with
         | O => None
         | S k =>
           match r with
           | Sym RP :: r => Some (TTup (rev acc), r)
           | Sym Comma :: r => go k acc r
           | _ => let? (t, r) := p_typ f r in go k (t :: acc) r
           end
         end) f [] r
    | _ => None
    end
  end.
Fixpoint p_pat (fuel : nat) (ts : list tok) : P pat :=
  match fuel with
  | O => None
  | S f =>
    match ts with
    | Kw KMut :: r => p_pat f r
    | Id x :: r => Some (PV x, r)
    | Sym LP :: r =>
      (fix go (k : nat) (acc : list pat) (r : list tok) : P pat :=
         match k with
         | O => None
         | S k =>
           match r with
           | Sym RP :: r => Some (PT (rev acc), r)
           | Sym Comma :: r => go k acc r
           | _ => let? (t, r) := p_pat f r in go k (t :: acc) r
           end
         end) f [] r
    | _ => None
    end
  end.

Section Cf.
(** whether the feature [limb32] is on, and whether pointers have 64 bits *)
Variables limb32 p64 : bool.
(** the condition of a [#[cfg(..)]] *)
Fixpoint p_cfg (fuel : nat) (ts : list tok) : P bool :=
  match fuel with
  | O => None
  | S f =>
    let all_of := fix go (k : nat) (u : bool) (acc : bool) (r : list tok) : P bool :=
      match k with
      | O => None
      | S k =>
        match r with
        | Sym RP :: r => Some (acc, r)
        | Sym Comma :: r => go k u acc r
        | _ => let? (b, r) := p_cfg f r in go k u (if u then acc && b else acc || b) r
        end
      end in
    match ts with
    | Id x :: r =>
      if String.eqb x "feature" then
        if prefix [Sym Equ; Str "limb32"] r then Some (limb32, tl (tl r)) else None
      else if String.eqb x "target_pointer_width" then
        if prefix [Sym Equ; Str "64"] r then Some (p64, tl (tl r)) else None
      else let! r := eats [LP] r in
      if String.eqb x "not" then
        let? (b, r) := p_cfg f r in let? (_u, r) := eat RP r in Some (negb b, r)
      else if String.eqb x "all" then all_of f true true r
      else if String.eqb x "any" then all_of f false false r
      else None
    | _ => None
    end
  end.

(** the constants between [::<] and [>] *)
Fixpoint p_gens (fuel : nat) (ts : list tok) : P exprs :=
  match fuel with
  | O => None
  | S f =>
    match ts with
    | Sym Gt_ :: r => Some (XNil, r)
    | Sym Comma :: r => p_gens f r
    | Kw KTrue :: r => let? (l, r) := p_gens f r in Some (XCons (EBool true) l, r)
    | Kw KFalse :: r => let? (l, r) := p_gens f r in Some (XCons (EBool false) l, r)
    | Id x :: r => let? (l, r) := p_gens f r in Some (XCons (EVar x) l, r)
    | Num z :: r => let? (l, r) := p_gens f r in Some (XCons (ELit z) l, r)
    | _ => None
    end
  end.

Variable mac : macros.

Fixpoint p_expr (fuel : nat) (lev : nat) (ts : list tok) {struct fuel} : P expr :=
  match fuel with
  | O => None
  | S f =>
    let? (a, r) := p_unary f ts in p_rest f lev a r
  end
(** [a], then operators that bind at least as tightly as [lev] *)
with p_rest (fuel : nat) (lev : nat) (a : expr) (ts : list tok) {struct fuel} : P expr :=
  match fuel with
  | O => None
  | S f =>
    match ts with
    | Kw KAs :: r => let? (t, r) := p_typ f r in p_rest f lev (ECast a t) r
    | Sym s :: r =>
      match level s with
      | Some k => if (lev <=? k)%nat then let? (b, r) := p_expr f (S k) r in p_rest f lev (EBin s a b) r
                  else Some (a, ts)
      | None => Some (a, ts)
      end
    | _ => Some (a, ts)
    end
  end
with p_unary (fuel : nat) (ts : list tok) {struct fuel} : P expr :=
  match fuel with
  | O => None
  | S f =>
    match ts with
    | Sym Bang :: r => let? (a, r) := p_unary f r in Some (EUn Bang a, r)
    | Sym Amp :: r => p_unary f r
    | Sym Star :: r => p_unary f r
    | _ => let? (a, r) := p_prim f ts in p_post f a r
    end
  end
with p_post (fuel : nat) (a : expr) (ts : list tok) {struct fuel} : P expr :=
  match fuel with
  | O => None
  | S f =>
    match ts with
    | Sym Dot :: r =>
      match r with
      | Id m :: r => let! r := eats [LP] r in let? (l, r) := p_args f RP r in p_post f (EMeth a m l) r
      | _ => None
      end
    | Sym LB :: r => let? (i, r) := p_expr f 0 r in let? (_u, r) := eat RB r in p_post f (EIdx a i) r
    | _ => Some (a, ts)
    end
  end
with p_args (fuel : nat) (close : sym) (ts : list tok) {struct fuel} : P exprs :=
  match fuel with
  | O => None
  | S f =>
    match eat close ts with
    | Some (_, r) => Some (XNil, r)
    | None =>
      let? (e, r) := p_expr f 0 ts in
      match r with
      | Sym Comma :: r => let? (l, r) := p_args f close r in Some (XCons e l, r)
      | _ => let? (_u, r) := eat close r in Some (XCons e XNil, r)
      end
    end
  end
with p_prim (fuel : nat) (ts : list tok) {struct fuel} : P expr :=
  match fuel with
  | O => None
  | S f =>
    match ts with
    | Num z :: r => Some (ELit z, r)
    | Kw k :: r =>
      match k with
      | KTrue => Some (EBool true, r)
      | KFalse => Some (EBool false, r)
      | KIf => let? (c, a) := p_if f r in (let '(c, x, y) := c in Some (EIf c x y, a))
      | KNeIndex =>
        let! r := eats [Bang; LP] r in
        let? (a, r) := p_expr f 0 r in let? (_u, r) := eat RP r in Some (a, r)
      | _ => None
      end
    | Id x :: r =>
      match eats [Bang; LP] r with
      | Some r =>
        let! rs := mget mac x in
        let (args, r) := to_close 0 r in
        let! ts := expand rs args in
        let? (e, r') := p_expr f 0 ts in
        match r' with [] => Some (e, r) | _ => None end
      | None =>
      match eats [LP] r with
      | Some r => let? (l, r) := p_args f RP r in Some (ECall x XNil l, r)
      | None =>
      match eats [PathSep; Lt_] r with
      | Some r =>
        let? (g, r) := p_gens f r in
        let? (_u, r) := eat LP r in
        let? (l, r) := p_args f RP r in Some (ECall x g l, r)
      | None =>
      match eats [PathSep] r with
      | Some (Id y :: r) => Some (EAssoc (TName x) y, r)
      | Some _ => None
      | None => Some (EVar x, r)
      end end end end
    | Sym s :: r =>
      match s with
      | Lt_ =>
        let? (t, r) := p_typ f r in
        let! r := eats [Gt_; PathSep] r in
        match r with Id y :: r => Some (EAssoc t y, r) | _ => None end
      | LP =>
        let? (l, r) := p_args f RP r in
        match l with XCons e XNil => Some (e, r) | _ => Some (ETup l, r) end
      | LB =>
        let? (e, r) := p_expr f 0 r in
        match eats [Semi] r with
        | Some r => let? (n, r) := p_expr f 0 r in let? (_u, r) := eat RB r in Some (ERep e n, r)
        | None => let! r := eats [RB] r in Some (EList (XCons e XNil), r)
        end
      | LC => let? (b, r) := p_blk f r in Some (EBlk b, r)
      | _ => None
      end
    | _ => None
    end
  end
(** what follows [if] *)
with p_if (fuel : nat) (ts : list tok) {struct fuel} : P (expr * blk * blk) :=
  match fuel with
  | O => None
  | S f =>
    let? (c, r) := p_expr f 0 ts in
    let? (_u, r) := eat LC r in
    let? (a, r) := p_blk f r in
    match r with
    | Kw KElse :: r =>
      match r with
      | Kw KIf :: r =>
        let? (i, r) := p_if f r in
        let '(c', x, y) := i in Some (c, a, BCons (SIf c' x y) BNil, r)
      | _ => let! r := eats [LC] r in let? (b, r) := p_blk f r in Some (c, a, b, r)
      end
    | _ => Some (c, a, BNil, r)
    end
  end
(** statements up to the closing brace *)
with p_blk (fuel : nat) (ts : list tok) {struct fuel} : P blk :=
  match fuel with
  | O => None
  | S f =>
    match ts with
    | Sym RC :: r => Some (BNil, r)
    | Sym Semi :: r => p_blk f r
    | Sym Hash :: r =>
      if prefix [Sym LB; Id "cfg"; Sym LP] r then
        let? (b, r) := p_cfg f (skipn 3 r) in
        let! r := eats [RP; RB] r in
        let? (s, r) := p_stmt f r in
        let? (l, r) := p_blk f r in
        Some (if b then BCons s l else l, r)
      else None
    | _ =>
      let? (s, r) := p_stmt f ts in
      let? (l, r) := p_blk f r in
      Some (BCons s l, r)
    end
  end
with p_stmt (fuel : nat) (ts : list tok) {struct fuel} : P stmt :=
  match fuel with
  | O => None
  | S f =>
    let other :=
      match p_pat f ts with
      | Some (p, Sym o :: r) =>
        match o, p with
        | Equ, _ => let? (e, r) := p_expr f 0 r in Some (SAssign p e, r)
        | PlusEq, PV x => let? (e, r) := p_expr f 0 r in Some (SOp Plus x e, r)
        | MinusEq, PV x => let? (e, r) := p_expr f 0 r in Some (SOp Minus x e, r)
        | AmpEq, PV x => let? (e, r) := p_expr f 0 r in Some (SOp Amp x e, r)
        | _, _ => let? (e, r) := p_expr f 0 ts in Some (SExp e, r)
        end
      | _ => let? (e, r) := p_expr f 0 ts in Some (SExp e, r)
      end in
    match ts with
    | Kw k :: r =>
      match k with
      | KConst =>
        match r with
        | Id x :: r =>
          let! r := eats [Colon] r in
          let? (t, r) := p_typ f r in
          let? (_u, r) := eat Equ r in
          let? (e, r) := p_expr f 0 r in Some (SLet (PV x) (Some t) e, r)
        | _ => None
        end
      | KLet =>
        let? (p, r) := p_pat f r in
        let? (t, r) := match eats [Colon] r with
                       | Some r => let? (t, r) := p_typ f r in Some (Some t, r)
                       | None => Some (None, r)
                       end in
        match eats [Equ] r with
        | Some r => let? (e, r) := p_expr f 0 r in Some (SLet p t e, r)
        | None => match p, t with PV x, Some t => Some (SDecl x t, r) | _, _ => None end
        end
      | KWhile =>
        let? (c, r) := p_expr f 0 r in
        let? (_u, r) := eat LC r in
        let? (b, r) := p_blk f r in Some (SWhile c b, r)
      | KIf => let? (i, r) := p_if f r in (let '(c, a, b) := i in Some (SIf c a b, r))
      | KBreak => Some (SBreak, r)
      | KReturn => let? (e, r) := p_expr f 0 r in Some (SReturn e, r)
      | KAssert =>
        let! r := eats [Bang; LP] r in
        let? (e, r) := p_expr f 0 r in let (_, r) := to_close 0 r in Some (SAssert false e, r)
      | KDebugAssert =>
        let! r := eats [Bang; LP] r in
        let? (e, r) := p_expr f 0 r in let (_, r) := to_close 0 r in Some (SAssert true e, r)
      | KNeIndex =>
        let! r := eats [Bang; LP] r in
        match r with
        | Id x :: r =>
          let! r := eats [LB] r in
          let? (i, r) := p_expr f 0 r in
          match eats [RB; Equ] r with
          | Some r => let? (e, r) := p_expr f 0 r in let? (_u, r) := eat RP r in Some (SSet x i e, r)
          | None => let? (e, r) := p_expr f 0 ts in Some (SExp e, r)
          end
        | _ => None
        end
      | _ => other
      end
    | _ => other
    end
  end.

Fixpoint p_params (fuel : nat) (ts : list tok) : P (list (string * typ)) :=
  match fuel with
  | O => None
  | S f =>
    match ts with
    | Sym RP :: r => Some ([], r)
    | Sym Comma :: r => p_params f r
    | Kw KMut :: r => p_params f r
    | Id x :: r =>
      let! r := eats [Colon] r in
      let? (t, r) := p_typ f r in
      let? (l, r) := p_params f r in Some ((x, t) :: l, r)
    | _ => None
    end
  end.
Fixpoint p_generics (fuel : nat) (ts : list tok) : P (list string) :=
  match fuel with
  | O => None
  | S f =>
    match ts with
    | Sym Gt_ :: r => Some ([], r)
    | Sym Comma :: r => p_generics f r
    | Kw KConst :: r =>
      match r with
      | Id x :: r => let! r := eats [Colon] r in let? (l, r) := p_generics f (tl r) in Some (x :: l, r)
      | _ => None
      end
    | _ => None
    end
  end.
(** what follows [fn] *)
Definition p_fn (fuel : nat) (ts : list tok) : P fn :=
  match ts with
  | Id name :: r =>
    let? (g, r) := match r with Sym Lt_ :: r => p_generics fuel r | _ => Some ([], r) end in
    let? (_u, r) := eat LP r in
    let? (ps, r) := p_params fuel r in
    let? (_u, r) := eat Arrow r in
    let? (t, r) := p_typ fuel r in
    let? (_u, r) := eat LC r in
    let? (b, r) := p_blk fuel r in
    Some ({| f_name := name; f_gen := g; f_par := ps; f_ret := t; f_body := b |}, r)
  | _ => None
  end.
End Cf.

(** The functions of a file.  Attributes and [use] are passed over, macros are
    remembered, calls of known macros are replaced by what they stand for, and
    the tests at the end are left out.  [None] if anything is not understood. *)
Fixpoint p_items (limb32 p64 : bool) (fuel : nat) (m : macros) (acc : list fn) (ts : list tok) {struct fuel}
  : option (list fn * macros) :=
  match fuel with
  | O => None
  | S f =>
    let go m acc r := p_items limb32 p64 f m acc r in
    match ts with
    | [] => Some (rev acc, m)
    | Sym s :: r =>
      match s with
      | Semi => go m acc r
      | Hash =>
        if prefix [Sym LB; Id "cfg"; Sym LP; Id "test"] r then Some (rev acc, m)
        else match eats [LB] r with
             | Some r => let (_, r) := to_close 0 r in go m acc r
             | None => let! r := eats [Bang; LB] r in let (_, r) := to_close 0 r in go m acc r
             end
      | _ => None
      end
    | Kw k :: r =>
      match k with
      | KUse => go m acc (past_semi r)
      | KPub | KConst => go m acc r
      | KMacroRules =>
        let! r := eats [Bang] r in
        match r with
        | Id x :: r =>
          let! r := eats [LC] r in
          let (b, r) := to_close 0 r in
          go ((x, rules (List.length b) b) :: m) acc r
        | Kw _ :: r => let! r := eats [LC] r in let (b, r) := to_close 0 r in go m acc r
        | _ => None
        end
      | KFn => let? (d, r) := p_fn limb32 p64 m f r in go m (d :: acc) r
      | _ => None
      end
    | Id x :: r =>
      let! r := eats [Bang] r in
      match r with
      | t :: r =>
        if opens t then
          let (args, r) := to_close 0 r in
          let! rs := mget m x in
          let! ts := expand rs args in
          go m acc (ts ++ r)%list
        else None
      | [] => None
      end
    | _ => None
    end
  end.
