(** * Model: the machine-code listings in the documentation

    The array functions of src/math/add.rs, src/math/sub.rs and
    src/math/rotate.rs carry, under "# Assembly", the x86_64 code they are said
    to compile to.  This file has a small machine that runs these listings and
    the listings themselves, one definition each.

    The machine has the sixteen general registers, byte-addressed memory with
    64-bit addresses, and the flags the listings read (carry, overflow, zero).
    A flag an instruction leaves undefined is [None], and reading it stops the
    run.  Simplifications: every address can be read and written, [ret] ends
    the run and does not touch the stack, and jumps only go forward (the only
    jump in the listings does). *)

Require Import ZArith List Bool.
Import ListNotations.
Local Open Scope Z_scope.

Inductive reg := RAX | RCX | RDX | RBX | RSP | RBP | RSI | RDI | R8 | R9 | R10 | R11 | R12 | R13 | R14 | R15.
Definition reg_eqb (a b : reg) : bool :=
  match a, b with
  | RAX, RAX | RCX, RCX | RDX, RDX | RBX, RBX | RSP, RSP | RBP, RBP | RSI, RSI | RDI, RDI
  | R8, R8 | R9, R9 | R10, R10 | R11, R11 | R12, R12 | R13, R13 | R14, R14 | R15, R15 => true
  | _, _ => false
  end.

(** Operand sizes: [r8b]/[sil], [ax], [eax], [rax]. *)
Inductive size := S8 | S16 | S32 | S64.
Definition width (s : size) : Z := match s with S8 => 8 | S16 => 16 | S32 => 32 | S64 => 64 end.

(** A register, an immediate, or memory at a register plus a displacement. *)
Inductive arg := R (r : reg) | I (n : Z) | M (base : reg) (disp : Z).

Inductive instr :=
  | MOV (s : size) (d a : arg) | MOVZX (s : size) (d : arg) (t : size) (a : arg)
  | ADD (s : size) (d a : arg) | ADC (s : size) (d a : arg)
  | SUB (s : size) (d a : arg) | SBB (s : size) (d a : arg)
  | AND (s : size) (d a : arg) | OR (s : size) (d a : arg) | XOR (s : size) (d a : arg)
  | TEST (s : size) (d a : arg) | NEG (s : size) (d : arg)
  | SHL (s : size) (d n : arg) | SHR (s : size) (d n : arg) | SAR (s : size) (d n : arg)
  | SETO (d : arg) | SETB (d : arg) | CMOVE (s : size) (d a : arg)
  | JE | LABEL | RET.

Record state := St {
  regs : reg -> Z;
  mem : Z -> Z;
  cf : option bool; of : option bool; zf : option bool }.

Definition b2z (b : bool) : Z := if b then 1 else 0.

(** ** Memory: little-endian, addresses modulo 2^64 *)

Fixpoint load (k : nat) (m : Z -> Z) (a : Z) : Z :=
  match k with
  | O => 0
  | S k => m (a mod 2 ^ 64) + 256 * load k m (a + 1)
  end.
Definition store (k : nat) (m : Z -> Z) (a v : Z) : Z -> Z :=
  fun p => let i := (p - a) mod 2 ^ 64 in if i <? Z.of_nat k then (v / 256 ^ i) mod 256 else m p.

(** ** Operands *)

Definition bytes (s : size) : nat := match s with S8 => 1 | S16 => 2 | S32 => 4 | S64 => 8 end.

Definition read (s : size) (st : state) (a : arg) : Z :=
  match a with
  | R r => match s with S64 => regs st r | _ => regs st r mod 2 ^ width s end
  | I n => n mod 2 ^ width s
  | M b d => load (bytes s) (mem st) (regs st b + d)
  end.

(** Writing 32 bits of a register clears its upper half; writing 8 or 16 keeps
    the rest. *)
Definition put (r : reg) (v : Z) (f : reg -> Z) : reg -> Z := fun q => if reg_eqb r q then v else f q.
Definition write (s : size) (st : state) (d : arg) (v : Z) : option state :=
  match d with
  | R r =>
      let old := regs st r in
      let new := match s with S64 | S32 => v | _ => old - old mod 2 ^ width s + v end in
      Some (St (put r new (regs st)) (mem st) (cf st) (of st) (zf st))
  | M b d => Some (St (regs st) (store (bytes s) (mem st) (regs st b + d) v) (cf st) (of st) (zf st))
  | I _ => None
  end.

Definition flags (c o z : option bool) (st : state) : state := St (regs st) (mem st) c o z.

(** The two's-complement reading of a [w]-bit pattern. *)
Definition signed (w v : Z) : Z := if v <? 2 ^ (w - 1) then v else v - 2 ^ w.
Definition out_of_range (w v : Z) : bool := negb ((- 2 ^ (w - 1) <=? v) && (v <? 2 ^ (w - 1))).

(** ** Instructions *)

(** add and adc, with the incoming carry *)
Definition addc (s : size) (st : state) (d a : arg) (c : bool) : option state :=
  let w := width s in
  let x := read s st d in
  let y := read s st a in
  let t := x + y + b2z c in
  let v := t mod 2 ^ w in
  write s (flags (Some (2 ^ w <=? t)) (Some (out_of_range w (signed w x + signed w y + b2z c))) (Some (v =? 0)) st) d v.
(** sub and sbb, with the incoming borrow *)
Definition subb (s : size) (st : state) (d a : arg) (c : bool) : option state :=
  let w := width s in
  let x := read s st d in
  let y := read s st a in
  let t := x - y - b2z c in
  let v := t mod 2 ^ w in
  write s (flags (Some (t <? 0)) (Some (out_of_range w (signed w x - signed w y - b2z c))) (Some (v =? 0)) st) d v.
(** and, or, xor clear carry and overflow *)
Definition logic (op : Z -> Z -> Z) (s : size) (st : state) (d a : arg) : option state :=
  let v := op (read s st d) (read s st a) in
  write s (flags (Some false) (Some false) (Some (v =? 0)) st) d v.
(** The count of a shift is taken modulo 32, or 64 for 64-bit operands; the
    flags stay as they are when it is zero.  The listings never read the carry
    or overflow flag after a shift, and the model leaves them undefined. *)
Definition shift (op : Z -> Z -> Z -> Z) (s : size) (st : state) (d n : arg) : option state :=
  let k := read S8 st n mod (match s with S64 => 64 | _ => 32 end) in
  let w := width s in
  let v := op w (read s st d) k mod 2 ^ w in
  write s (if k =? 0 then st else flags None None (Some (v =? 0)) st) d v.

Definition with_flag {A} (f : option bool) (k : bool -> option A) : option A :=
  match f with Some b => k b | None => None end.

(** Everything but control flow. *)
Definition step (i : instr) (st : state) : option state :=
  match i with
  | MOV s d a => write s st d (read s st a)
  | MOVZX s d t a => if width t <? width s then write s st d (read t st a) else None
  | ADD s d a => addc s st d a false
  | ADC s d a => with_flag (cf st) (addc s st d a)
  | SUB s d a => subb s st d a false
  | SBB s d a => with_flag (cf st) (subb s st d a)
  | AND s d a => logic Z.land s st d a
  | OR s d a => logic Z.lor s st d a
  | XOR s d a => logic Z.lxor s st d a
  | TEST s d a => Some (flags (Some false) (Some false) (Some (Z.land (read s st d) (read s st a) =? 0)) st)
  | NEG s d =>
      let x := read s st d in
      let v := (- x) mod 2 ^ width s in
      write s (flags (Some (negb (x =? 0))) (Some (out_of_range (width s) (- signed (width s) x))) (Some (v =? 0)) st) d v
  | SHL s d n => shift (fun _ x k => x * 2 ^ k) s st d n
  | SHR s d n => shift (fun _ x k => x / 2 ^ k) s st d n
  | SAR s d n => shift (fun w x k => signed w x / 2 ^ k) s st d n
  | SETO d => with_flag (of st) (fun b => write S8 st d (b2z b))
  | SETB d => with_flag (cf st) (fun b => write S8 st d (b2z b))
  | CMOVE s d a => with_flag (zf st) (fun b => write s st d (if b then read s st a else read s st d))
  | JE | LABEL | RET => None
  end.

(** [skip] is set while a taken jump looks for its label.  Running past the
    end is an error. *)
Fixpoint run (p : list instr) (skip : bool) (st : state) : option state :=
  match p with
  | [] => None
  | i :: t =>
      match i with
      | RET => if skip then run t true st else Some st
      | LABEL => run t false st
      | JE => if skip then run t true st else with_flag (zf st) (fun b => run t b st)
      | _ =>
          if skip then run t true st
          else match step i st with Some st => run t false st | None => None end
      end
  end.

(** ** The listings *)

(** math/add.rs 32-46 *)
Definition doc_add_full : list instr := [
  MOV S64 (R RAX) (R RDI); MOV S64 (R RCX) (M RSI 0); MOV S64 (R RDI) (M RSI 8);
  ADD S64 (R RCX) (M RDX 0); MOV S64 (R R8) (M RSI 16); ADC S64 (R RDI) (M RDX 8);
  MOV S64 (R R9) (M RDX 24); ADC S64 (R R8) (M RDX 16); ADC S64 (R R9) (M RSI 24);
  MOV S64 (M RAX 0) (R RCX); MOV S64 (M RAX 8) (R RDI); MOV S64 (M RAX 16) (R R8);
  MOV S64 (M RAX 24) (R R9); RET].

(** math/add.rs 78-93 *)
Definition doc_add_full_flag : list instr := [
  MOV S64 (R RAX) (R RDI); MOV S64 (R RCX) (M RSI 0); ADD S64 (R RCX) (M RDX 0);
  MOV S64 (R RDI) (M RSI 8); ADC S64 (R RDI) (M RDX 8); MOV S64 (R R8) (M RSI 16);
  ADC S64 (R R8) (M RDX 16); MOV S64 (R RSI) (M RSI 24); ADC S64 (R RSI) (M RDX 24);
  MOV S64 (M RAX 0) (R RCX); MOV S64 (M RAX 8) (R RDI); MOV S64 (M RAX 16) (R R8);
  MOV S64 (M RAX 24) (R RSI); SETB (M RAX 32); RET].

(** math/add.rs 125-138 *)
Definition doc_add_limb : list instr := [
  MOV S64 (R RAX) (R RDI); MOV S64 (R RCX) (M RSI 8); MOV S64 (R RDI) (M RSI 16);
  ADD S64 (R RDX) (M RSI 0); ADC S64 (R RCX) (I 0); ADC S64 (R RDI) (I 0);
  MOV S64 (R RSI) (M RSI 24); ADC S64 (R RSI) (I 0); MOV S64 (M RAX 0) (R RDX);
  MOV S64 (M RAX 8) (R RCX); MOV S64 (M RAX 16) (R RDI); MOV S64 (M RAX 24) (R RSI); RET].

(** math/add.rs 174-188 *)
Definition doc_add_limb_flag : list instr := [
  MOV S64 (R RAX) (R RDI); MOV S64 (R RCX) (M RSI 8); MOV S64 (R RDI) (M RSI 16);
  MOV S64 (R R8) (M RSI 24); ADD S64 (R RDX) (M RSI 0); ADC S64 (R RCX) (I 0);
  ADC S64 (R RDI) (I 0); ADC S64 (R R8) (I 0); MOV S64 (M RAX 0) (R RDX);
  MOV S64 (M RAX 8) (R RCX); MOV S64 (M RAX 16) (R RDI); MOV S64 (M RAX 24) (R R8);
  SETB (M RAX 32); RET].

(** math/add.rs 368-382 *)
Definition doc_sadd_full : list instr := [
  MOV S64 (R RAX) (R RDI); MOV S64 (R RCX) (M RSI 0); MOV S64 (R RDI) (M RSI 8);
  ADD S64 (R RCX) (M RDX 0); MOV S64 (R R8) (M RSI 16); ADC S64 (R RDI) (M RDX 8);
  MOV S64 (R R9) (M RDX 24); ADC S64 (R R8) (M RDX 16); ADC S64 (R R9) (M RSI 24);
  MOV S64 (M RAX 0) (R RCX); MOV S64 (M RAX 8) (R RDI); MOV S64 (M RAX 16) (R R8);
  MOV S64 (M RAX 24) (R R9); RET].

(** math/add.rs 421-440 *)
Definition doc_sadd_full_flag : list instr := [
  MOV S64 (R RCX) (M RSI 24); ADD S64 (R RCX) (M RDX 24); MOV S64 (R R8) (M RSI 0); SETO (R R9);
  ADD S64 (R R8) (M RDX 0); MOV S64 (R R10) (M RSI 8); ADC S64 (R R10) (M RDX 8);
  MOV S64 (R RSI) (M RSI 16); ADC S64 (R RSI) (M RDX 16); MOV S64 (R RAX) (R RDI);
  ADC S64 (R RCX) (I 0); SETO (R RDX); XOR S8 (R RDX) (R R9); MOV S64 (M RDI 0) (R R8);
  MOV S64 (M RDI 8) (R R10); MOV S64 (M RDI 16) (R RSI); MOV S64 (M RDI 24) (R RCX);
  MOV S8 (M RDI 32) (R RDX); RET].

(** math/add.rs 494-507 *)
Definition doc_sadd_ulimb : list instr := [
  MOV S64 (R RAX) (R RDI); MOV S64 (R RCX) (M RSI 8); MOV S64 (R RDI) (M RSI 16);
  ADD S64 (R RDX) (M RSI 0); ADC S64 (R RCX) (I 0); ADC S64 (R RDI) (I 0);
  MOV S64 (R RSI) (M RSI 24); ADC S64 (R RSI) (I 0); MOV S64 (M RAX 0) (R RDX);
  MOV S64 (M RAX 8) (R RCX); MOV S64 (M RAX 16) (R RDI); MOV S64 (M RAX 24) (R RSI); RET].

(** math/add.rs 544-558 *)
Definition doc_sadd_ulimb_flag : list instr := [
  ADD S64 (R RDX) (M RSI 0); MOV S64 (R RCX) (M RSI 8); MOV S64 (R R8) (M RSI 16);
  ADC S64 (R RCX) (I 0); ADC S64 (R R8) (I 0); MOV S64 (R RAX) (R RDI); MOV S64 (R RSI) (M RSI 24);
  ADC S64 (R RSI) (I 0); MOV S64 (M RDI 0) (R RDX); MOV S64 (M RDI 8) (R RCX);
  MOV S64 (M RDI 16) (R R8); MOV S64 (M RDI 24) (R RSI); SETO (M RDI 32); RET].

(** math/add.rs 597-611 *)
Definition doc_sadd_ilimb : list instr := [
  MOV S64 (R RAX) (R RDI); MOV S64 (R RCX) (R RDX); SAR S64 (R RCX) (I 63);
  MOV S64 (R RDI) (M RSI 8); MOV S64 (R R8) (M RSI 16); ADD S64 (R RDX) (M RSI 0);
  ADC S64 (R RDI) (I 0); ADC S64 (R R8) (I 0); ADC S64 (R RCX) (M RSI 24);
  MOV S64 (M RAX 0) (R RDX); MOV S64 (M RAX 8) (R RDI); MOV S64 (M RAX 16) (R R8);
  MOV S64 (M RAX 24) (R RCX); RET].

(** math/add.rs 636-655 *)
Definition doc_sadd_ilimb_flag : list instr := [
  MOV S64 (R RAX) (R RDI); MOV S64 (R RCX) (R RDX); SAR S64 (R RCX) (I 63);
  MOV S64 (R RDI) (M RSI 8); MOV S64 (R R8) (M RSI 16); ADD S64 (R RCX) (M RSI 24); SETO (R R9);
  ADD S64 (R RDX) (M RSI 0); ADC S64 (R RDI) (I 0); ADC S64 (R R8) (I 0); ADC S64 (R RCX) (I 0);
  SETO (R RSI); XOR S8 (R RSI) (R R9); MOV S64 (M RAX 0) (R RDX); MOV S64 (M RAX 8) (R RDI);
  MOV S64 (M RAX 16) (R R8); MOV S64 (M RAX 24) (R RCX); MOV S8 (M RAX 32) (R RSI); RET].

(** math/sub.rs 32-46 *)
Definition doc_sub_full : list instr := [
  MOV S64 (R RAX) (R RDI); MOV S64 (R RCX) (M RSI 16); MOV S64 (R RDI) (M RSI 0);
  SUB S64 (R RDI) (M RDX 0); MOV S64 (R R8) (M RSI 8); SBB S64 (R R8) (M RDX 8);
  SBB S64 (R RCX) (M RDX 16); MOV S64 (R RSI) (M RSI 24); SBB S64 (R RSI) (M RDX 24);
  MOV S64 (M RAX 0) (R RDI); MOV S64 (M RAX 8) (R R8); MOV S64 (M RAX 16) (R RCX);
  MOV S64 (M RAX 24) (R RSI); RET].

(** math/sub.rs 80-95 *)
Definition doc_sub_full_flag : list instr := [
  MOV S64 (R RAX) (R RDI); MOV S64 (R RCX) (M RSI 0); SUB S64 (R RCX) (M RDX 0);
  MOV S64 (R RDI) (M RSI 8); SBB S64 (R RDI) (M RDX 8); MOV S64 (R R8) (M RSI 16);
  SBB S64 (R R8) (M RDX 16); MOV S64 (R RSI) (M RSI 24); SBB S64 (R RSI) (M RDX 24);
  MOV S64 (M RAX 0) (R RCX); MOV S64 (M RAX 8) (R RDI); MOV S64 (M RAX 16) (R R8);
  MOV S64 (M RAX 24) (R RSI); SETB (M RAX 32); RET].

(** math/sub.rs 129-143 *)
Definition doc_sub_limb : list instr := [
  MOV S64 (R RCX) (M RSI 0); MOV S64 (R R8) (M RSI 8); SUB S64 (R RCX) (R RDX);
  SBB S64 (R R8) (I 0); MOV S64 (R RAX) (R RDI); MOV S64 (R RDX) (M RSI 16); SBB S64 (R RDX) (I 0);
  MOV S64 (R RSI) (M RSI 24); SBB S64 (R RSI) (I 0); MOV S64 (M RDI 0) (R RCX);
  MOV S64 (M RDI 8) (R R8); MOV S64 (M RDI 16) (R RDX); MOV S64 (M RDI 24) (R RSI); RET].

(** math/sub.rs 178-193 *)
Definition doc_sub_limb_flag : list instr := [
  MOV S64 (R RCX) (M RSI 0); MOV S64 (R R8) (M RSI 8); SUB S64 (R RCX) (R RDX);
  SBB S64 (R R8) (I 0); MOV S64 (R RDX) (M RSI 16); SBB S64 (R RDX) (I 0); MOV S64 (R RAX) (R RDI);
  MOV S64 (R RSI) (M RSI 24); SBB S64 (R RSI) (I 0); MOV S64 (M RDI 0) (R RCX);
  MOV S64 (M RDI 8) (R R8); MOV S64 (M RDI 16) (R RDX); MOV S64 (M RDI 24) (R RSI);
  SETB (M RDI 32); RET].

(** math/sub.rs 369-383 *)
Definition doc_ssub_full : list instr := [
  MOV S64 (R RAX) (R RDI); MOV S64 (R RCX) (M RSI 16); MOV S64 (R RDI) (M RSI 0);
  SUB S64 (R RDI) (M RDX 0); MOV S64 (R R8) (M RSI 8); SBB S64 (R R8) (M RDX 8);
  SBB S64 (R RCX) (M RDX 16); MOV S64 (R RSI) (M RSI 24); SBB S64 (R RSI) (M RDX 24);
  MOV S64 (M RAX 0) (R RDI); MOV S64 (M RAX 8) (R R8); MOV S64 (M RAX 16) (R RCX);
  MOV S64 (M RAX 24) (R RSI); RET].

(** math/sub.rs 419-438 *)
Definition doc_ssub_full_flag : list instr := [
  MOV S64 (R RCX) (M RSI 24); SUB S64 (R RCX) (M RDX 24); MOV S64 (R R8) (M RSI 0); SETO (R R9);
  SUB S64 (R R8) (M RDX 0); MOV S64 (R R10) (M RSI 8); SBB S64 (R R10) (M RDX 8);
  MOV S64 (R RSI) (M RSI 16); SBB S64 (R RSI) (M RDX 16); MOV S64 (R RAX) (R RDI);
  SBB S64 (R RCX) (I 0); SETO (R RDX); XOR S8 (R RDX) (R R9); MOV S64 (M RDI 0) (R R8);
  MOV S64 (M RDI 8) (R R10); MOV S64 (M RDI 16) (R RSI); MOV S64 (M RDI 24) (R RCX);
  MOV S8 (M RDI 32) (R RDX); RET].

(** math/sub.rs 492-506 *)
Definition doc_ssub_ulimb : list instr := [
  MOV S64 (R RCX) (M RSI 0); MOV S64 (R R8) (M RSI 8); SUB S64 (R RCX) (R RDX);
  SBB S64 (R R8) (I 0); MOV S64 (R RAX) (R RDI); MOV S64 (R RDX) (M RSI 16); SBB S64 (R RDX) (I 0);
  MOV S64 (R RSI) (M RSI 24); SBB S64 (R RSI) (I 0); MOV S64 (M RDI 0) (R RCX);
  MOV S64 (M RDI 8) (R R8); MOV S64 (M RDI 16) (R RDX); MOV S64 (M RDI 24) (R RSI); RET].

(** math/sub.rs 543-558 *)
Definition doc_ssub_ulimb_flag : list instr := [
  MOV S64 (R RCX) (M RSI 0); MOV S64 (R R8) (M RSI 8); SUB S64 (R RCX) (R RDX);
  SBB S64 (R R8) (I 0); MOV S64 (R RDX) (M RSI 16); SBB S64 (R RDX) (I 0); MOV S64 (R RAX) (R RDI);
  MOV S64 (R RSI) (M RSI 24); SBB S64 (R RSI) (I 0); MOV S64 (M RDI 0) (R RCX);
  MOV S64 (M RDI 8) (R R8); MOV S64 (M RDI 16) (R RDX); MOV S64 (M RDI 24) (R RSI);
  SETO (M RDI 32); RET].

(** math/sub.rs 596-612 *)
Definition doc_ssub_ilimb : list instr := [
  MOV S64 (R RCX) (R RDX); SHR S64 (R RCX) (I 63); MOV S64 (R R8) (M RSI 16);
  MOV S64 (R R9) (M RSI 0); MOV S64 (R R10) (M RSI 8); ADD S64 (R RCX) (M RSI 24);
  SUB S64 (R R9) (R RDX); SBB S64 (R R10) (I 0); SBB S64 (R R8) (I 0); MOV S64 (R RAX) (R RDI);
  SBB S64 (R RCX) (I 0); MOV S64 (M RDI 0) (R R9); MOV S64 (M RDI 8) (R R10);
  MOV S64 (M RDI 16) (R R8); MOV S64 (M RDI 24) (R RCX); RET].

(** math/sub.rs 635-656 *)
Definition doc_ssub_ilimb_flag : list instr := [
  MOV S64 (R RAX) (R RDI); MOV S64 (R RCX) (R RDX); SAR S64 (R RCX) (I 63);
  MOV S64 (R RDI) (M RSI 16); MOV S64 (R R8) (M RSI 0); MOV S64 (R R9) (M RSI 8);
  MOV S64 (R RSI) (M RSI 24); SUB S64 (R RSI) (R RCX); SETO (R R10); SUB S64 (R R8) (R RDX);
  SBB S64 (R R9) (R RCX); SBB S64 (R RDI) (R RCX); SBB S64 (R RSI) (I 0); SETO (R RCX);
  XOR S8 (R RCX) (R R10); MOV S64 (M RAX 0) (R R8); MOV S64 (M RAX 8) (R R9);
  MOV S64 (M RAX 16) (R RDI); MOV S64 (M RAX 24) (R RSI); MOV S8 (M RAX 32) (R RCX); RET].

(** math/rotate.rs 19-49 *)
Definition doc_rotate16 : list instr := [
  MOV S32 (R R8) (R RDI); SHR S32 (R R8) (I 16); TEST S8 (R RSI) (I 16); MOV S32 (R RAX) (R RDI);
  CMOVE S32 (R RAX) (R R8); CMOVE S32 (R R8) (R RDI); MOV S32 (R RDX) (R RSI);
  AND S32 (R RDX) (I 15); JE; MOV S32 (R RDI) (R RAX); MOV S32 (R RCX) (R RDX);
  SHL S32 (R RDI) (R RCX); MOVZX S32 (R R9) S16 (R RAX); MOVZX S32 (R RAX) S16 (R R8);
  NEG S8 (R RSI); AND S8 (R RSI) (I 15); MOV S32 (R RCX) (R RSI); SHR S32 (R RAX) (R RCX);
  MOV S32 (R RCX) (R RDX); SHL S32 (R R8) (R RCX); MOV S32 (R RCX) (R RSI); SHR S32 (R R9) (R RCX);
  OR S32 (R RAX) (R RDI); OR S32 (R R9) (R R8); MOV S32 (R R8) (R R9); LABEL;
  MOVZX S32 (R RCX) S16 (R R8); SHL S32 (R RAX) (I 16); OR S32 (R RAX) (R RCX); RET].


(** ** Corrected listings

    The two additions of a signed limb and the wrapping subtraction above add or
    subtract zero in the middle limbs, where the functions (math/add.rs 615-621,
    659-665 and math/sub.rs 616-622) use the sign (see [C98_sadd_ilimb_exact] and
    its companions).  The same listings with the sign. *)

Definition fix_sadd_ilimb : list instr := [
  MOV S64 (R RAX) (R RDI); MOV S64 (R RCX) (R RDX); SAR S64 (R RCX) (I 63);
  MOV S64 (R RDI) (M RSI 8); MOV S64 (R R8) (M RSI 16); ADD S64 (R RDX) (M RSI 0);
  ADC S64 (R RDI) (R RCX); ADC S64 (R R8) (R RCX); ADC S64 (R RCX) (M RSI 24);
  MOV S64 (M RAX 0) (R RDX); MOV S64 (M RAX 8) (R RDI); MOV S64 (M RAX 16) (R R8);
  MOV S64 (M RAX 24) (R RCX); RET].

(** The last limb needs a register of its own, since the middle limbs need the
    sign after it is computed. *)
Definition fix_sadd_ilimb_flag : list instr := [
  MOV S64 (R RAX) (R RDI); MOV S64 (R RCX) (R RDX); SAR S64 (R RCX) (I 63);
  MOV S64 (R RDI) (M RSI 8); MOV S64 (R R8) (M RSI 16); MOV S64 (R R10) (M RSI 0);
  MOV S64 (R RSI) (M RSI 24); ADD S64 (R RSI) (R RCX); SETO (R R9);
  ADD S64 (R R10) (R RDX); ADC S64 (R RDI) (R RCX); ADC S64 (R R8) (R RCX); ADC S64 (R RSI) (I 0);
  SETO (R RCX); XOR S8 (R RCX) (R R9); MOV S64 (M RAX 0) (R R10); MOV S64 (M RAX 8) (R RDI);
  MOV S64 (M RAX 16) (R R8); MOV S64 (M RAX 24) (R RSI); MOV S8 (M RAX 32) (R RCX); RET].

Definition fix_ssub_ilimb : list instr := [
  MOV S64 (R RCX) (R RDX); SAR S64 (R RCX) (I 63); MOV S64 (R R8) (M RSI 16);
  MOV S64 (R R9) (M RSI 0); MOV S64 (R R10) (M RSI 8); MOV S64 (R RSI) (M RSI 24);
  SUB S64 (R R9) (R RDX); SBB S64 (R R10) (R RCX); SBB S64 (R R8) (R RCX); MOV S64 (R RAX) (R RDI);
  SBB S64 (R RSI) (R RCX); MOV S64 (M RDI 0) (R R9); MOV S64 (M RDI 8) (R R10);
  MOV S64 (M RDI 16) (R R8); MOV S64 (M RDI 24) (R RSI); RET].
