(** * Running the source text

    The meaning of the syntax of MText.v.  Like MText.v it describes Rust and
    not /repo: variables, blocks, loops, calls, and for each operator the
    operation of Prim.v that its operand types select.  A program that is
    ill-typed, or that uses anything not described here, is [OutOfFuel]. *)

Require Import ZArith List Bool String.
From Verif Require Import Prim MText SrcText.
Import ListNotations.
Local Open Scope string_scope.
Local Open Scope Z_scope.

(** Integer types: unsigned, signed, [usize], and [IL] for a literal whose
    type is not known yet. *)
Inductive ity := IU (w : Z) | IS (w : Z) | IX | IL.
Inductive val := VI (t : ity) (z : Z) | VB (b : bool) | VA (t : ity) (l : list Z) | VT (l : list val).
Definition env := list (string * val).
Inductive out := ONext (en : env) (v : val) | OBrk (en : env) | ORet (v : val).

Definition unit_ : val := VT [].
Definition stuck {A} : res A := OutOfFuel.
Definition opt {A} (o : option A) : res A := match o with Some a => Ok a | None => stuck end.

Definition unify (a b : ity) : option ity :=
  match a, b with
  | IL, _ => Some b
  | _, IL => Some a
  | IU x, IU y => if x =? y then Some a else None
  | IS x, IS y => if x =? y then Some a else None
  | IX, IX => Some IX
  | _, _ => None
  end.

(** the number of trailing zeros of a positive number *)
Fixpoint ptz (p : positive) : Z :=
  match p with xO q => 1 + ptz q | _ => 0 end.

Fixpoint pairup {A B} (l : list A) (m : list B) : option (list (A * B)) :=
  match l, m with
  | [], [] => Some []
  | a :: l, b :: m => match pairup l m with Some r => Some ((a, b) :: r) | None => None end
  | _, _ => None
  end.

Fixpoint update (en : env) (x : string) (v : val) : option env :=
  match en with
  | [] => None
  | (y, u) :: r =>
    if String.eqb x y then Some ((y, v) :: r)
    else match update r x v with Some r => Some ((y, u) :: r) | None => None end
  end.
(** leave a block: forget the variables declared in it *)
Fixpoint elen (en : env) : nat := match en with [] => O | _ :: r => S (elen r) end.
Fixpoint less (a b : nat) : nat := match a, b with S a, S b => less a b | _, _ => a end.
Definition leave (en en' : env) : env := skipn (less (elen en') (elen en)) en'.
(** comparisons of values (as opposed to widths) *)
Definition zeq (x y : Z) : bool := x =? y.

Section Run.
Context {c : Cfg}.
(** the width of [usize] *)
Variable pw : Z.

Definition prims : list (string * ity) :=
  [("u8", IU 8); ("u32", IU 32); ("u64", IU 64); ("u128", IU 128);
   ("i32", IS 32); ("i64", IS 64); ("i128", IS 128); ("usize", IX);
   ("ULimb", IU W); ("UWide", IU (2 * W)); ("ILimb", IS W); ("IWide", IS (2 * W))].

(** a value at a declared type *)
Fixpoint coerce (t : typ) (v : val) {struct t} : option val :=
  match t, v with
  | TName s, VI a z =>
    match look prims s with
    | Some b => match unify a b with Some _ => Some (VI b z) | None => None end
    | None => None
    end
  | TName s, VB b => if String.eqb s "bool" then Some v else None
  | TArr (TName s) _, VA a l =>
    match look prims s with
    | Some b => match unify a b with Some _ => Some (VA b l) | None => None end
    | None => None
    end
  | TTup ts, VT vs =>
    match (fix go (ts : list typ) (vs : list val) :=
             match ts, vs with
             | [], [] => Some []
             | t :: ts, v :: vs =>
               match coerce t v, go ts vs with Some a, Some b => Some (a :: b) | _, _ => None end
             | _, _ => None
             end) ts vs with
    | Some l => Some (VT l)
    | None => None
    end
  | _, _ => None
  end.
(** what a variable declared without a value holds; it is written before it is read *)
Definition blank (t : typ) : option val :=
  match t with
  | TName s => if String.eqb s "bool" then Some (VB false)
               else match look prims s with Some a => Some (VI a 0) | None => None end
  | _ => None
  end.

(** an assignment keeps the type of the variable *)
Definition retag (old v : val) : option val :=
  match old, v with
  | VI a _, VI b z => match unify a b with Some _ => Some (VI a z) | None => None end
  | VA a _, VA b l => match unify a b with Some _ => Some (VA a l) | None => None end
  | VB _, VB _ => Some v
  | _, _ => None
  end.
Definition assign (en : env) (x : string) (v : val) : option env :=
  match look en x with
  | Some old => match retag old v with Some v => update en x v | None => None end
  | None => None
  end.
Fixpoint bind_pat (new : bool) (p : pat) (v : val) (en : env) {struct p} : option env :=
  match p, v with
  | PV x, _ => if new then Some ((x, v) :: en) else assign en x v
  | PT ps, VT vs =>
    (fix go (ps : list pat) (vs : list val) (en : env) :=
       match ps, vs with
       | [], [] => Some en
       | p :: ps, v :: vs => match bind_pat new p v en with Some en => go ps vs en | None => None end
       | _, _ => None
       end) ps vs en
  | _, _ => None
  end.

Definition arith (op : sym) (t : ity) (x y : Z) : res val :=
  match (match t with IU w => Some w | IX | IL => Some pw | IS _ => None end) with
  | None => stuck
  | Some w =>
    let r := match op with
             | Plus => uadd w x y
             | Minus => usub w x y
             | Star => umul w x y
             | Slash => udiv x y
             | Percent => urem x y
             | _ => stuck
             end in
    let* z := r in Ok (VI t z)
  end.
Definition shift (op : sym) (t : ity) (x y : Z) : res val :=
  let r := match op, t with
           | Shl_, IU w => ushl w x y
           | Shr_, IU w => ushr w x y
           | Shr_, IX => ushr pw x y
           | Shr_, IS w => sshr w x y
           | _, _ => stuck
           end in
  let* z := r in Ok (VI t z).
Definition compare_ (op : sym) (x y : Z) : res val :=
  match op with
  | EqEq => Ok (VB (zeq x y))
  | Ne_ => Ok (VB (negb (zeq x y)))
  | Lt_ => Ok (VB (x <? y))
  | Gt_ => Ok (VB (y <? x))
  | Le_ => Ok (VB (x <=? y))
  | Ge_ => Ok (VB (y <=? x))
  | _ => stuck
  end.
Definition binop (op : sym) (a b : val) : res val :=
  match a, b with
  | VI t x, VI u y =>
    match op with
    | Shl_ | Shr_ => shift op t x y
    | Plus | Minus | Star | Slash | Percent => let* t := opt (unify t u) in arith op t x y
    | Amp => let* t := opt (unify t u) in Ok (VI t (Z.land x y))
    | Bar => let* t := opt (unify t u) in Ok (VI t (Z.lor x y))
    | Caret => let* t := opt (unify t u) in Ok (VI t (Z.lxor x y))
    | _ => let* _ := opt (unify t u) in compare_ op x y
    end
  | VB x, VB y =>
    match op with
    | Amp => Ok (VB (x && y))
    | Bar => Ok (VB (x || y))
    | Caret => Ok (VB (xorb x y))
    | EqEq => Ok (VB (Bool.eqb x y))
    | Ne_ => Ok (VB (negb (Bool.eqb x y)))
    | _ => stuck
    end
  | _, _ => stuck
  end.
Definition unop (op : sym) (a : val) : res val :=
  match op, a with
  | Bang, VB x => Ok (VB (negb x))
  | Bang, VI (IU w) x => Ok (VI (IU w) (p_not w x))
  | _, _ => stuck
  end.
Definition cast (t : typ) (a : val) : res val :=
  match t with
  | TName s =>
    match look prims s, a with
    | Some (IU w), VI _ z => Ok (VI (IU w) (ucast w z))
    | Some (IS w), VI _ z => Ok (VI (IS w) (scast w z))
    | Some IX, VI _ z => Ok (VI IX (ucast pw z))
    | Some u, VB b => Ok (VI u (b2z b))
    | _, _ => stuck
    end
  | _ => stuck
  end.
Definition assoc (t : typ) (x : string) : res val :=
  match t with
  | TName s =>
    match look prims s with
    | Some (IU w) =>
      if String.eqb x "BITS" then Ok (VI (IU 32) w)
      else if String.eqb x "MIN" then Ok (VI (IU w) 0)
      else if String.eqb x "MAX" then Ok (VI (IU w) (2 ^ w - 1))
      else stuck
    | Some (IS w) =>
      if String.eqb x "BITS" then Ok (VI (IU 32) w)
      else if String.eqb x "MIN" then Ok (VI (IS w) (- 2 ^ (w - 1)))
      else if String.eqb x "MAX" then Ok (VI (IS w) (2 ^ (w - 1) - 1))
      else stuck
    | _ => stuck
    end
  | _ => stuck
  end.
Definition meth (a : val) (m : string) (args : list val) : res val :=
  match a, args with
  | VI t x, [VI u y] =>
    let* t := opt (unify t u) in
    match t with
    | IU w =>
      if String.eqb m "wrapping_add" then Ok (VI t (p_wrapping_add w x y))
      else if String.eqb m "wrapping_sub" then Ok (VI t (p_wrapping_sub w x y))
      else if String.eqb m "wrapping_mul" then Ok (VI t (p_wrapping_mul w x y))
      else if String.eqb m "overflowing_add" then
        let (v, b) := p_overflowing_add w x y in Ok (VT [VI t v; VB b])
      else if String.eqb m "overflowing_sub" then
        let (v, b) := p_overflowing_sub w x y in Ok (VT [VI t v; VB b])
      else stuck
    | IS w =>
      if String.eqb m "overflowing_add" then
        let (v, b) := p_soverflowing_add w x y in Ok (VT [VI t v; VB b])
      else if String.eqb m "overflowing_sub" then
        let (v, b) := p_soverflowing_sub w x y in Ok (VT [VI t v; VB b])
      else stuck
    | _ => stuck
    end
  | VI (IS w) x, [] => if String.eqb m "is_negative" then Ok (VB (x <? 0)) else stuck
  | VI (IU w) x, [] =>
    if String.eqb m "trailing_zeros" then
      match x with Z0 => Ok (VI (IU 32) w) | Zpos p => Ok (VI (IU 32) (ptz p)) | Zneg _ => stuck end
    else stuck
  | VA _ l, [] => if String.eqb m "len" then Ok (VI (IX) (Z.of_nat (List.length l))) else stuck
  | _, _ => stuck
  end.
Definition index (a i : val) : res val :=
  match a, i with
  | VA t l, VI u i => let* _ := opt (unify u (IX)) in let* z := get l (Z.to_nat i) in Ok (VI t z)
  | _, _ => stuck
  end.
Definition set_index (a i v : val) : res val :=
  match a, i, v with
  | VA t l, VI u i, VI t' z =>
    let* _ := opt (unify u (IX)) in
    let* _ := opt (unify t t') in
    let* l := set l (Z.to_nat i) z in Ok (VA t l)
  | _, _, _ => stuck
  end.
Definition rep (a n : val) : res val :=
  match a, n with
  | VI t z, VI u n => let* _ := opt (unify u (IX)) in Ok (VA t (repeat z (Z.to_nat n)))
  | _, _ => stuck
  end.
Fixpoint ints (l : list val) : res (ity * list Z) :=
  match l with
  | [] => Ok (IL, [])
  | VI t z :: r => let* (u, zs) := ints r in let* t := opt (unify t u) in Ok (t, z :: zs)
  | _ => stuck
  end.

(** how loops and calls are run *)
Variable whl : expr -> blk -> env -> res out.
Variable call : string -> list val -> list val -> res val.

Fixpoint ev (e : expr) (en : env) {struct e} : res val :=
  match e with
  | ELit z => Ok (VI IL z)
  | EBool b => Ok (VB b)
  | EVar x => opt (look en x)
  | EUn op a => let* a := ev a en in unop op a
  | EBin AndAnd a b =>
    let* a := ev a en in match a with VB true => ev b en | VB false => Ok a | _ => stuck end
  | EBin OrOr a b =>
    let* a := ev a en in match a with VB false => ev b en | VB true => Ok a | _ => stuck end
  | EBin op a b => let* a := ev a en in let* b := ev b en in binop op a b
  | ECast a t => let* a := ev a en in cast t a
  | EAssoc t x => assoc t x
  | ECall f gs args => let* gs := evs gs en in let* args := evs args en in call f gs args
  | EMeth a m args => let* a := ev a en in let* args := evs args en in meth a m args
  | EIdx a i => let* a := ev a en in let* i := ev i en in index a i
  | ERep a n => let* a := ev a en in let* n := ev n en in rep a n
  | EList l => let* l := evs l en in let* (t, l) := ints l in Ok (VA t l)
  | ETup l => let* l := evs l en in Ok (VT l)
  | EIf e a b =>
    let* e := ev e en in
    match e with
    | VB b' =>
      let* o := (if b' then exec_blk a en else exec_blk b en) in
      match o with ONext _ v => Ok v | _ => stuck end
    | _ => stuck
    end
  | EBlk b => let* o := exec_blk b en in match o with ONext _ v => Ok v | _ => stuck end
  end
with evs (l : exprs) (en : env) {struct l} : res (list val) :=
  match l with
  | XNil => Ok []
  | XCons e r => let* v := ev e en in let* vs := evs r en in Ok (v :: vs)
  end
with exec (s : stmt) (en : env) {struct s} : res out :=
  match s with
  | SLet p t e =>
    let* v := ev e en in
    let* v := (match t with Some t => opt (coerce t v) | None => Ok v end) in
    let* en := opt (bind_pat true p v en) in Ok (ONext en unit_)
  | SDecl x t => let* v := opt (blank t) in Ok (ONext ((x, v) :: en) unit_)
  | SAssign p e =>
    let* v := ev e en in
    let* en := opt (bind_pat false p v en) in Ok (ONext en unit_)
  | SOp op x e =>
    let* b := ev e en in
    let* a := opt (look en x) in
    let* v := binop op a b in
    let* en := opt (assign en x v) in Ok (ONext en unit_)
  | SSet x i e =>
    let* v := ev e en in
    let* i := ev i en in
    let* a := opt (look en x) in
    let* a := set_index a i v in
    let* en := opt (update en x a) in Ok (ONext en unit_)
  | SWhile e b => whl e b en
  | SIf e a b =>
    let* e := ev e en in
    match e with
    | VB b' =>
      let* o := (if b' then exec_blk a en else exec_blk b en) in
      Ok (match o with
          | ONext en' v => ONext (leave en en') v
          | OBrk en' => OBrk (leave en en')
          | ORet v => ORet v
          end)
    | _ => stuck
    end
  | SAssert d e =>
    if d then
      if dbg then
        let* b := ev e en in
        match b with VB b => let* _ := assert_ b in Ok (ONext en unit_) | _ => stuck end
      else Ok (ONext en unit_)
    else
      let* b := ev e en in
      match b with VB b => let* _ := assert_ b in Ok (ONext en unit_) | _ => stuck end
  | SBreak => Ok (OBrk en)
  | SReturn e => let* v := ev e en in Ok (ORet v)
  | SExp e => let* v := ev e en in Ok (ONext en v)
  end
(** the value of a block is that of its last statement *)
with exec_blk (b : blk) (en : env) {struct b} : res out :=
  match b with
  | BNil => Ok (ONext en unit_)
  | BCons s r =>
    let* o := exec s en in
    match o with
    | ONext en v => match r with BNil => Ok o | _ => exec_blk r en end
    | _ => Ok o
    end
  end.

(** constant parameters are given, or are the lengths of the arguments *)
Definition note_len (gens : list string) (t : typ) (v : val) (g : env) : option env :=
  match t, v with
  | TArr _ [Id n], VA _ l =>
    if existsb (String.eqb n) gens then
      match look g n with
      | Some (VI _ z) => if zeq z (Z.of_nat (List.length l)) then Some g else None
      | Some _ => None
      | None => Some ((n, VI (IX) (Z.of_nat (List.length l))) :: g)
      end
    else None
  | TArr _ _, _ => None
  | _, _ => Some g
  end.
Fixpoint params (gens : list string) (ps : list (string * typ)) (args : list val) (g en : env) : option env :=
  match ps, args with
  | [], [] => Some (en ++ g)%list
  | (x, t) :: ps, v :: args =>
    match coerce t v, note_len gens t v g with
    | Some v, Some g => params gens ps args g ((x, v) :: en)
    | _, _ => None
    end
  | _, _ => None
  end.

End Run.

(** [while e { b }], at most [k] times round; loops inside have what is left of [k] *)
Fixpoint wh {c : Cfg} (pw : Z) (call : string -> list val -> list val -> res val) (k : nat)
  (e : expr) (b : blk) (en : env) : res out :=
  match k with
  | O => OutOfFuel
  | S k =>
    let* t := ev pw (wh pw call k) call e en in
    match t with
    | VB false => Ok (ONext en unit_)
    | VB true =>
      let* o := exec_blk pw (wh pw call k) call b en in
      match o with
      | ONext en' _ => wh pw call k e b (leave en en')
      | OBrk en' => Ok (ONext (leave en en') unit_)
      | ORet v => Ok (ORet v)
      end
    | _ => stuck
    end
  end.

Fixpoint find_fn (pr : list fn) (f : string) : option fn :=
  match pr with [] => None | d :: r => if String.eqb f (f_name d) then Some d else find_fn r f end.

(** Call [f] in the program [pr]; calls nest at most [d] deep and loops
    go round at most [fuel] times. *)
Fixpoint run {c : Cfg} (pw : Z) (fuel d : nat) (pr : list fn) (f : string) (gs args : list val) {struct d}
  : res val :=
  match d with
  | O => OutOfFuel
  | S d =>
    let* fd := opt (find_fn pr f) in
    let* g := (match gs with [] => Ok [] | _ => opt (pairup (f_gen fd) gs) end) in
    let* en := opt (params (f_gen fd) (f_par fd) args g []) in
    let* o := exec_blk pw (wh pw (run pw fuel d pr) fuel) (run pw fuel d pr) (f_body fd) en in
    match o with
    | ONext _ v | ORet v => opt (coerce (f_ret fd) v)
    | OBrk _ => stuck
    end
  end.

(** ** The programs

    A file is read for given settings of the feature [limb32] and of the
    pointer width.  src/math/add.rs, sub.rs and mul.rs import functions of
    src/math/bigint.rs (their [use] lines), and every file may use
    [limb_function!]. *)
Definition depth : nat := 2000.
Definition shared_macros (limb32 p64 : bool) : macros :=
  match p_items limb32 p64 depth [] [] (tokens text_util) with Some (_, m) => m | None => [] end.
Definition read (limb32 p64 : bool) (text : string) : option (list fn) :=
  match p_items limb32 p64 depth (shared_macros limb32 p64) [] (tokens text) with
  | Some (l, _) => Some l
  | None => None
  end.
Definition link (a b : option (list fn)) : list fn :=
  match a, b with Some a, Some b => (a ++ b)%list | _, _ => [] end.
Definition prog_bigint (limb32 p64 : bool) : list fn := link (read limb32 p64 text_bigint) (Some []).
Definition prog_add (limb32 p64 : bool) : list fn :=
  link (read limb32 p64 text_add) (read limb32 p64 text_bigint).
Definition prog_sub (limb32 p64 : bool) : list fn :=
  link (read limb32 p64 text_sub) (read limb32 p64 text_bigint).
Definition prog_mul (limb32 p64 : bool) : list fn :=
  link (read limb32 p64 text_mul) (read limb32 p64 text_bigint).
Definition prog_shift (limb32 p64 : bool) : list fn := link (read limb32 p64 text_shift) (Some []).
Definition prog_rotate (limb32 p64 : bool) : list fn := link (read limb32 p64 text_rotate) (Some []).
(** The width of a limb (src/types.rs 67-103): 64 bits, unless the target has
    other than 64-bit pointers or the feature [limb32] is on. *)
Definition limb_bits (limb32 p64 : bool) : Z := if negb limb32 && p64 then 64 else 32.
