(** * Machine-level primitives used by the model

    Result values, bounds-checked arrays, loops, and the semantics of Rust's
    primitive integer operations (std, not part of /repo).  Machine integers
    are elements of [Z]; an unsigned [w]-bit value lies in [0, 2^w), a signed
    one in [-2^(w-1), 2^(w-1)). *)

Require Import ZArith List Bool.
Import ListNotations.
Local Open Scope Z_scope.

(** Outcome of running a Rust function: a value, a panic, or (for loops that
    are not syntactically bounded) exhausted fuel. *)
Inductive res (A : Type) : Type :=
| Ok (a : A)
| Panic
| OutOfFuel.
Arguments Ok {A} a.
Arguments Panic {A}.
Arguments OutOfFuel {A}.

Definition bind {A B : Type} (m : res A) (k : A -> res B) : res B :=
  match m with
  | Ok a => k a
  | Panic => Panic
  | OutOfFuel => OutOfFuel
  end.

Notation "'let*' p := m 'in' k" :=
  (bind m (fun x => match x with p => k end))
  (at level 200, p pattern, m at level 200, k at level 200, right associativity).

(** [assert!(b)] *)
Definition assert_ (b : bool) : res unit := if b then Ok tt else Panic.

(** The build configuration: limb width in bits ([ULimb::BITS], src/types.rs
    65-90), number of limbs ([LIMBS], src/shared/constants.rs 12-43), and
    [cfg!(have_overflow_checks)] (build.rs).  [chk] is also used for the
    overflow checks the compiler inserts on plain [+ - *]; build.rs derives
    [have_overflow_checks] from that very compiler setting.  [dbg] is
    [cfg(debug_assertions)], a compiler setting of its own. *)
Class Cfg : Type := { W : Z; N : nat; chk : bool; dbg : bool }.
(** [debug_assert!(b)] *)
Definition dassert {c : Cfg} (b : bool) : res unit := if dbg then assert_ b else Ok tt.

(** ** Arrays *)

(** [a[i]] *)
Definition get {A} (a : list A) (i : nat) : res A :=
  match nth_error a i with
  | Some v => Ok v
  | None => Panic
  end.

Fixpoint upd {A} (a : list A) (i : nat) (v : A) : list A :=
  match a, i with
  | [], _ => []
  | _ :: t, O => v :: t
  | h :: t, S i' => h :: upd t i' v
  end.

(** [a[i] = v] *)
Definition set {A} (a : list A) (i : nat) (v : A) : res (list A) :=
  if (i <? length a)%nat then Ok (upd a i v) else Panic.

(** ** Loops *)

(** [k] iterations of the body, at indexes [i], [i+1], ... *)
Fixpoint for_m {St} (k i : nat) (body : nat -> St -> res St) (s : St) : res St :=
  match k with
  | O => Ok s
  | S k' => let* s' := body i s in for_m k' (S i) body s'
  end.

(** [let mut i = lo; while i < hi { body; i += 1 }] *)
Definition for_range {St} (lo hi : nat) (body : nat -> St -> res St) (s : St) : res St :=
  for_m (hi - lo) lo body s.

(** [while cond { body }] with explicit fuel. *)
Fixpoint while_m {St} (fuel : nat) (cond : St -> bool) (body : St -> res St) (s : St) : res St :=
  if cond s then
    match fuel with
    | O => OutOfFuel
    | S f => let* s' := body s in while_m f cond body s'
    end
  else Ok s.

(** ** Primitive integers *)

(** Truncating cast to an unsigned [w]-bit type ([x as uw]). *)
Definition ucast (w x : Z) : Z := x mod 2 ^ w.

(** Truncating cast to a signed [w]-bit type ([x as iw]). *)
Definition scast (w x : Z) : Z :=
  let u := x mod 2 ^ w in if u <? 2 ^ (w - 1) then u else u - 2 ^ w.

(** [b as uw] for a boolean *)
Definition b2z (b : bool) : Z := if b then 1 else 0.

Definition in_u (w x : Z) : bool := (0 <=? x) && (x <? 2 ^ w).
Definition in_s (w x : Z) : bool := (- 2 ^ (w - 1) <=? x) && (x <? 2 ^ (w - 1)).

(** [uN::overflowing_add] etc. on primitives *)
Definition p_overflowing_add (w x y : Z) : Z * bool := (ucast w (x + y), negb (in_u w (x + y))).
Definition p_overflowing_sub (w x y : Z) : Z * bool := (ucast w (x - y), negb (in_u w (x - y))).
Definition p_wrapping_add (w x y : Z) : Z := ucast w (x + y).
Definition p_wrapping_sub (w x y : Z) : Z := ucast w (x - y).
Definition p_wrapping_mul (w x y : Z) : Z := ucast w (x * y).
(** [iN::overflowing_add] etc. on primitives *)
Definition p_soverflowing_add (w x y : Z) : Z * bool := (scast w (x + y), negb (in_s w (x + y))).
Definition p_soverflowing_sub (w x y : Z) : Z * bool := (scast w (x - y), negb (in_s w (x - y))).
(** [!x] on an unsigned primitive *)
Definition p_not (w x : Z) : Z := 2 ^ w - 1 - x.

Section Checked.
  Context {c : Cfg}.

  (** Result of a plain arithmetic operator on [uw]: panic on overflow when
      overflow checks are on, wrap otherwise. *)
  Definition uchk (w v : Z) : res Z :=
    if in_u w v then Ok v else if chk then Panic else Ok (ucast w v).
  Definition schk (w v : Z) : res Z :=
    if in_s w v then Ok v else if chk then Panic else Ok (scast w v).

  Definition uadd (w x y : Z) : res Z := uchk w (x + y).
  Definition usub (w x y : Z) : res Z := uchk w (x - y).
  Definition umul (w x y : Z) : res Z := uchk w (x * y).

  (** Plain [/] and [%] on unsigned primitives: panic on a zero divisor. *)
  Definition udiv (x y : Z) : res Z := if y =? 0 then Panic else Ok (x / y).
  Definition urem (x y : Z) : res Z := if y =? 0 then Panic else Ok (x mod y).

  (** Plain [<<] and [>>] on unsigned primitives: an amount of at least [w]
      panics with overflow checks and is masked otherwise. *)
  Definition ushl (w x s : Z) : res Z :=
    if in_u 32 s && (s <? w) then Ok (ucast w (x * 2 ^ s))
    else if chk then Panic else Ok (ucast w (x * 2 ^ (s mod w))).
  Definition ushr (w x s : Z) : res Z :=
    if in_u 32 s && (s <? w) then Ok (x / 2 ^ s)
    else if chk then Panic else Ok (x / 2 ^ (s mod w)).
  (** Plain [>>] on a signed primitive (arithmetic). *)
  Definition sshr (w x s : Z) : res Z :=
    if in_u 32 s && (s <? w) then Ok (x / 2 ^ s)
    else if chk then Panic else Ok (x / 2 ^ (s mod w)).
End Checked.
