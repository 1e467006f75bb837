(** * Model: the random benchmarks of the 256-bit types

    devel/benches/input.rs (the data), devel/benches/{add,sub,mul,div,shift,rotate}.rs
    (the calls) and devel/src/lib.rs.  A benchmark is run once over its data: criterion
    repeats the same pure calls.  The calls of the other two libraries ([bnum],
    [crypto_bigint]) are not modelled.

    A [fastrand] generator is any sequence of numbers; a draw from a range reduces the
    next one into it, so every sequence of values within the ranges can come up. *)

Require Import String ZArith List Bool.
From Verif Require Import Prim Spec MAdd MMul MShift MCore MArith MDiv MApi MScalar MForms MLayout.
Import ListNotations.
Local Open Scope string_scope.
Local Open Scope list_scope.
Local Open Scope Z_scope.

(** ** Data *)

Definition rng : Type := nat -> Z.
(** [rng.$t(lo..hi)] of fastrand: below [hi]; an empty range panics *)
Definition draw (lo hi : Z) (r : rng) : res (Z * rng) :=
  if hi <=? lo then Panic else Ok (lo + r 0%nat mod (hi - lo), fun n => r (S n)).

(** input.rs 13-22 [RandomGen] *)
Inductive strategy := Uniform | Simple | SimpleSigned | Large | LargeSigned.
(** input.rs 62-104 [unsigned_rng!], 106-153 [signed_rng!]: the range of each strategy
    for the type of [b] bits; [None] is [unimplemented!()] *)
Definition unsigned_large (b : Z) : Z * Z :=
  if b =? 8 then (100, 255) else if b =? 16 then (1024, 65535) else if b =? 32 then (67108864, 4294967295)
  else if b =? 64 then (288230376151711744, 18446744073709551615)
  else (5316911983139663491615228241121378304, 340282366920938463463374607431768211455).
Definition signed_large (b : Z) : Z * Z :=
  if b =? 8 then (100, 127) else if b =? 16 then (1024, 32767) else if b =? 32 then (67108864, 2147483647)
  else if b =? 64 then (288230376151711744, 9223372036854775807)
  else (5316911983139663491615228241121378304, 170141183460469231731687303715884105727).
Definition simple_max (b : Z) : Z := if b =? 8 then 50 else 1000.
Definition range (sg : bool) (b : Z) (s : strategy) : option (Z * Z) :=
  match s with
  | Uniform => Some (if sg then (- 2 ^ (b - 1), 2 ^ (b - 1) - 1) else (0, 2 ^ b - 1))
  | Simple => Some (0, simple_max b)
  | Large => Some (if sg then signed_large b else unsigned_large b)
  | SimpleSigned => if sg then Some (- simple_max b, simple_max b) else None
  | LargeSigned => if sg then Some (- snd (signed_large b), - fst (signed_large b)) else None
  end.
(** input.rs 32-41 [gen] *)
Definition gen (sg : bool) (b : Z) (s : strategy) (r : rng) : res (Z * rng) :=
  match range sg b s with Some (lo, hi) => draw lo hi r | None => Panic end.
(** input.rs 47-55: the array of [n] values; [j] counts the entries *)
Fixpoint gen_array (sg : bool) (b : Z) (s : strategy) (n : nat) (j : nat) (r : rng) : res (list Z * rng) :=
  match n with
  | O => Ok ([], r)
  | S n =>
      let is_simple := match s with Simple | SimpleSigned => true | _ => false end in
      let* (v, r) := if is_simple && Nat.odd j then Ok (0, r) else gen sg b s r in
      let* (l, r) := gen_array sg b s n (S j) r in
      Ok (v :: l, r)
  end.
(** input.rs 43-59 [gen_n] *)
Fixpoint gen_n (sg : bool) (b : Z) (s : strategy) (n : nat) (count : nat) (r : rng) : res (list (list Z) * rng) :=
  match count with
  | O => Ok ([], r)
  | S count =>
      let* (a, r) := gen_array sg b s n 0 r in
      let* (l, r) := gen_n sg b s n count r in
      Ok (a :: l, r)
  end.

Section M.
Context {c : Cfg}.

(** input.rs 233-241 [to_u256], [to_i256] *)
Definition to_u256 (x y : Z) : res (list Z) :=
  let* x1 := ushr 128 x 64 in
  let* y1 := ushr 128 y 64 in
  from_le_u64 false [ucast 64 x; ucast 64 x1; ucast 64 y; ucast 64 y1].
Definition to_i256 (x y : Z) : res (list Z) :=
  let x := ucast 128 x in
  let y := ucast 128 y in
  let* x1 := ushr 128 x 64 in
  let* y1 := ushr 128 y 64 in
  let* u := from_le_u64 false [ucast 64 x; ucast 64 x1; ucast 64 y; ucast 64 y1] in
  as_signed u.
Definition wide (sg : bool) (x y : Z) : res (list Z) := if sg then to_i256 x y else to_u256 x y.

(** ** Calls *)

(** What [black_box] receives: a number, a number with a flag, or an [Option]. *)
Inductive seen := Val (x : list Z) | Flagged (p : list Z * bool) | Maybe (o : option (list Z)).
(** One benchmark: its name after the prefix, and what it does with one array. *)
Definition bench : Type := string * (list Z -> res seen).
Definition kept {A} (k : A -> seen) (m : res A) : res seen := let* a := m in Ok (k a).
(** input.rs 189-191, 201-203 [to_u256_udata], [to_i256_idata] with 167-179 [bench_op!] *)
Definition on_pair {A} (k : A -> seen) (sg : bool) (f : list Z -> list Z -> res A) (a : list Z) : res seen :=
  let* x0 := get a 0 in let* x1 := get a 1 in let* y0 := get a 2 in let* y1 := get a 3 in
  let* x := wide sg x0 x1 in
  let* y := wide sg y0 y1 in
  kept k (f x y).
(** input.rs 193-195, 205-207 [to_ulimb_udata], [to_ulimb_idata] *)
Definition on_ulimb {A} (k : A -> seen) (sg : bool) (f : list Z -> Z -> res A) (a : list Z) : res seen :=
  let* x0 := get a 0 in let* x1 := get a 1 in let* n := get a 2 in
  let* x := wide sg x0 x1 in
  kept k (f x (ucast W n)).
(** input.rs 209-211 [to_ilimb_idata] *)
Definition on_ilimb {A} (k : A -> seen) (f : list Z -> Z -> res A) (a : list Z) : res seen :=
  let* x0 := get a 0 in let* x1 := get a 1 in let* n := get a 2 in
  let* x := wide true x0 x1 in
  kept k (f x (scast W n)).
(** shift.rs 18-23, rotate.rs 18-22, 51-54: [x[2] as u32] *)
Definition on_u32 {A} (k : A -> seen) (sg : bool) (f : list Z -> Z -> res A) (a : list Z) : res seen :=
  let* x0 := get a 0 in let* x1 := get a 1 in let* n := get a 2 in
  let* x := wide sg x0 x1 in
  kept k (f x (ucast 32 n)).

(** The benchmarks over the unsigned and over the signed data of a group, and the
    number of values in an array. *)
Record group := { entries : nat; over_unsigned : list bench; over_signed : list bench }.
(** add.rs 15-80, sub.rs 15-80 *)
Definition add_group : group := {| entries := 4;
  over_unsigned := [ ("unsigned-256", on_pair Val false (wrapping_add false));
                     ("unsigned-256-ulimb", on_ulimb Val false (wrapping_us SAdd KLimb false)) ];
  over_signed := [ ("signed-256", on_pair Val true (wrapping_add true));
                   ("signed-256-ulimb", on_ulimb Val true (wrapping_us SAdd KLimb true));
                   ("signed-256-ilimb", on_ilimb Val (wrapping_is SAdd KLimb)) ] |}.
Definition sub_group : group := {| entries := 4;
  over_unsigned := [ ("unsigned-256", on_pair Val false (wrapping_sub false));
                     ("unsigned-256-ulimb", on_ulimb Val false (wrapping_us SSub KLimb false)) ];
  over_signed := [ ("signed-256", on_pair Val true (wrapping_sub true));
                   ("signed-256-ulimb", on_ulimb Val true (wrapping_us SSub KLimb true));
                   ("signed-256-ilimb", on_ilimb Val (wrapping_is SSub KLimb)) ] |}.
(** mul.rs 15-119 *)
Definition mul_group : group := {| entries := 4;
  over_unsigned := [ ("unsigned-256", on_pair Val false (wrapping_mul false));
                     ("unsigned-256-ulimb", on_ulimb Val false (wrapping_us SMul KLimb false));
                     ("unsigned-check-256", on_pair Maybe false (checked_mul false)) ];
  over_signed := [ ("signed-256", on_pair Val true (wrapping_mul true));
                   ("signed-256-ulimb", on_ulimb Val true (wrapping_us SMul KLimb true));
                   ("signed-256-ilimb", on_ilimb Val (wrapping_is SMul KLimb));
                   ("signed-over-256", on_pair Flagged true (overflowing_mul true));
                   ("signed-over-256-ulimb", on_ulimb Flagged true (overflowing_us SMul KLimb true));
                   ("signed-over-256-ilimb", on_ilimb Flagged (overflowing_is SMul KLimb)) ] |}.
(** div.rs 9-10 *)
Definition DIV_FACTOR : Z := 3141.
(** div.rs 18-89; [DIV_FACTOR] is a [u64], so this file needs limbs of 64 bits *)
Definition div_group : group := {| entries := 4;
  over_unsigned := [ ("unsigned-256", on_pair Maybe false (checked_div false));
                     ("unsigned-256-ulimb", on_ulimb Maybe false (checked_div_us KLimb false));
                     ("unsigned-256-ulimb-const", on_ulimb Maybe false (fun x _ => checked_div_us KLimb false x DIV_FACTOR)) ];
  over_signed := [ ("signed-256", on_pair Maybe true (checked_div true));
                   ("signed-256-ulimb", on_ulimb Maybe true (checked_div_us KLimb true));
                   ("signed-256-ilimb", on_ilimb Maybe (checked_div_is KLimb)) ] |}.
(** shift.rs 15-62 *)
Definition shift_group : group := {| entries := 3;
  over_unsigned := [ ("unsigned-256-shl", on_u32 Val false wrapping_shl);
                     ("unsigned-256-shr", on_u32 Val false (wrapping_shr false)) ];
  over_signed := [] |}.
(** rotate.rs 15-82 *)
Definition rotate_group : group := {| entries := 3;
  over_unsigned := [ ("unsigned-256-left", on_u32 Val false rotate_left); ("unsigned-256-right", on_u32 Val false rotate_right) ];
  over_signed := [ ("signed-256-left", on_u32 Val true rotate_left); ("signed-256-right", on_u32 Val true rotate_right) ] |}.

(** input.rs 155-165 [add_bench!] *)
Fixpoint each {A B} (f : A -> res B) (l : list A) : res (list B) :=
  match l with [] => Ok [] | a :: l => let* b := f a in let* l := each f l in Ok (b :: l) end.
Definition run_bench (l : list (list Z)) (b : bench) : res (string * list seen) :=
  let* r := each (snd b) l in Ok (fst b, r).
(** The function made by [add_group!]: unsigned data, their benchmarks, signed data, their
    benchmarks; the answer is what the benchmarks hand to [black_box].  In mul.rs the last
    unsigned benchmark comes after the signed ones.  A group without signed benchmarks draws
    no signed data; here they are drawn and not used. *)
Definition run_group (g : group) (s : strategy) (count : nat) (r : rng) : res (list (string * list seen)) :=
  let* (u, r) := gen_n false 128 s (entries g) count r in
  let* a := each (run_bench u) (over_unsigned g) in
  let* (i, r) := gen_n true 128 s (entries g) count r in
  let* b := each (run_bench i) (over_signed g) in
  Ok (a ++ b).
(** the strategies of every file: its last [add_group!] lines *)
Definition used (s : strategy) : bool := match s with Uniform | Simple | Large => true | _ => false end.

(** devel/src/lib.rs 15-23 *)
Definition mul_signed_i256 (x y : list Z) : res (list Z) := wrapping_mul true x y.
Definition mul_unsigned_i256 (x y : list Z) : res (list Z) := wrapping_mul false x y.
(** devel/src/lib.rs 32-35: the parameters are of the unsigned type *)
Definition overflowing_mul_signed_i256 (x y : list Z) : res (list Z * bool) := overflowing_mul false x y.

End M.
