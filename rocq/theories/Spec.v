(** * Specification vocabulary, independent of the model's code *)

Require Import ZArith List Bool.
From Verif Require Import Prim.
Import ListNotations.
Local Open Scope Z_scope.

(** Value of a digit list in base [2^w], least significant digit first. *)
Fixpoint lval (w : Z) (l : list Z) : Z :=
  match l with
  | [] => 0
  | x :: t => x + 2 ^ w * lval w t
  end.

(** Every element is a [w]-bit unsigned digit. *)
Definition digits (w : Z) (l : list Z) : Prop := Forall (fun x => 0 <= x < 2 ^ w) l.

(** The representative of [v] modulo [2^b] in the signed range. *)
Definition swrap (b v : Z) : Z := (v + 2 ^ (b - 1)) mod 2 ^ b - 2 ^ (b - 1).

Definition fits_u (b v : Z) : Prop := 0 <= v < 2 ^ b.
Definition fits_s (b v : Z) : Prop := - 2 ^ (b - 1) <= v < 2 ^ (b - 1).

Section WithCfg.
  Context {c : Cfg}.

  (** Width of the type in bits. *)
  Definition BITS : Z := Z.of_nat N * W.

  (** The configurations the crate can be built for: 32- or 64-bit limbs and
      a width that is a multiple of 128, at least 256, and below 2^31 (so that
      [BITS] also fits an [i32] and two bit counts can be added in a [u32];
      the crate's own widths are 256, 384, 512 and 1024). *)
  Definition Valid : Prop :=
    (W = 32 \/ W = 64) /\ (exists k, 2 <= k /\ BITS = 128 * k) /\ BITS < 2 ^ 31.

  (** A stored value: [LIMBS] limbs, each in range. *)
  Definition wf (x : list Z) : Prop := length x = N /\ digits W x.

  (** The integer a stored value denotes as an unsigned / signed number. *)
  Definition uval (x : list Z) : Z := lval W x.
  Definition sval (x : list Z) : Z :=
    if uval x <? 2 ^ (BITS - 1) then uval x else uval x - 2 ^ BITS.

  (** "The call returns (without panicking) the unsigned / signed number v". *)
  Definition returns_u (m : res (list Z)) (v : Z) : Prop :=
    exists r, m = Ok r /\ wf r /\ uval r = v.
  Definition returns_s (m : res (list Z)) (v : Z) : Prop :=
    exists r, m = Ok r /\ wf r /\ sval r = v.
  (** The same with a boolean flag, resp. inside an [Option]. *)
  Definition returns_u_flag (m : res (list Z * bool)) (v : Z) (p : Prop) : Prop :=
    exists r f, m = Ok (r, f) /\ wf r /\ uval r = v /\ (f = true <-> p).
  Definition returns_s_flag (m : res (list Z * bool)) (v : Z) (p : Prop) : Prop :=
    exists r f, m = Ok (r, f) /\ wf r /\ sval r = v /\ (f = true <-> p).
  (** [Some v] when [p] holds, [None] when it does not. *)
  Definition returns_u_opt (m : res (option (list Z))) (p : Prop) (v : Z) : Prop :=
    (p /\ exists r, m = Ok (Some r) /\ wf r /\ uval r = v) \/ (~ p /\ m = Ok None).
  Definition returns_s_opt (m : res (option (list Z))) (p : Prop) (v : Z) : Prop :=
    (p /\ exists r, m = Ok (Some r) /\ wf r /\ sval r = v) \/ (~ p /\ m = Ok None).
  (** returns [v] when [p] holds, panics when it does not. *)
  Definition returns_u_or_panics (m : res (list Z)) (p : Prop) (v : Z) : Prop :=
    (p /\ returns_u m v) \/ (~ p /\ m = Panic).
  Definition returns_s_or_panics (m : res (list Z)) (p : Prop) (v : Z) : Prop :=
    (p /\ returns_s m v) \/ (~ p /\ m = Panic).
End WithCfg.

(** Configurations used in the examples. *)
Definition c256_64 : Cfg := {| W := 64; N := 4; chk := true; dbg := true |}.
Definition c256_32 : Cfg := {| W := 32; N := 8; chk := true; dbg := true |}.
Definition c384_64 : Cfg := {| W := 64; N := 6; chk := true; dbg := false |}.
Definition c512_32 : Cfg := {| W := 32; N := 16; chk := false; dbg := false |}.
