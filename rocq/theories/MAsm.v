(** * Model: the x86_64 variant of [div_rem_word]

    src/math/div.rs 479-491: one [div] instruction between fixed registers.  The callers
    are those of MDiv.v with the word division as a parameter. *)

Require Import ZArith List Bool.
From Verif Require Import Prim MAdd MCore MArith MDiv MApi.
Import ListNotations.
Local Open Scope Z_scope.

(** ** The machine *)

(** The 64-bit registers an operand can live in. *)
Inductive reg := RAX | RBX | RCX | RDX | RSI | RDI | RN (n : nat).
Definition reg_eqb (a b : reg) : bool :=
  match a, b with
  | RAX, RAX | RBX, RBX | RCX, RCX | RDX, RDX | RSI, RSI | RDI, RDI => true
  | RN m, RN n => (m =? n)%nat
  | _, _ => false
  end.
Definition regs := reg -> Z.
Definition write (r : reg) (v : Z) (s : regs) : regs := fun x => if reg_eqb x r then v else s x.

(** The instruction [div r] (unsigned, 64 bits): RDX:RAX by the operand, quotient to
    RAX and remainder to RDX; the exception #DE for a zero operand or a quotient that
    does not fit. *)
Definition exec_div (r : reg) (s : regs) : res regs :=
  let n := s RDX * 2 ^ 64 + s RAX in
  let d := s r in
  if d =? 0 then Panic
  else if 2 ^ 64 <=? n / d then Panic
  else Ok (write RDX (n mod d) (write RAX (n / d) s)).

(** div.rs 479-491: [divisor] in a register [r] of the compiler's choice, [quot] in and
    out through RAX, [rem] through RDX; [s] holds whatever was in the registers before. *)
Definition asm_block (r : reg) (s : regs) (quot rem divisor : Z) : res (Z * Z) :=
  let s := write RDX rem (write RAX quot (write r divisor s)) in
  let* s := exec_div r s in
  Ok (s RAX, s RDX).

Section M.
Context {c : Cfg}.

(** div.rs 437-491 [div_rem_word] on x86_64 without the features noasm and limb32 *)
Definition div_rem_word_asm (r : reg) (s : regs) (hi lo divisor : Z) : res (Z * Z) :=
  let* _ := dassert (hi <? divisor) in
  let* _ := dassert (negb (divisor =? 0)) in
  asm_block r s lo hi divisor.

(** ** The callers, over a word division [dw] *)
Section Over.
Variable dw : Z -> Z -> Z -> res (Z * Z).

(** div.rs 134-157 [limb] *)
Definition div_limb_w (numerator : list Z) (divisor : Z) : res (list Z * Z) :=
  let m := length numerator in
  let* z := (if (2 <=? m)%nat then is_zero numerator 2 else Ok false) in
  if z then
    let* lo := get numerator 0 in
    let* hi := get numerator 1 in
    let* x := join_limbs lo hi in
    let* quo := udiv x divisor in
    let* rem := urem x divisor in
    let* q := scalar2 m quo in
    Ok (q, ucast W rem)
  else
    for_range 0 m (fun k s => let '(num, r) := s in
      let i := (m - 1 - k)%nat in
      let* d := get num i in
      let* (q, ri) := dw r d divisor in
      let* num := set num i q in
      Ok (num, ri)) (numerator, 0).

(** div.rs 285-291 [limb_padded] *)
Definition limb_padded_w (numerator : list Z) (n : nat) (divisor : Z) : res (list Z * list Z) :=
  let* (q, rem) := div_limb_w numerator divisor in
  let* r := scalar1 n rem in
  Ok (q, r).

(** div.rs 347-377, the estimate *)
Definition estimate_w (a0 a1 : Z) (a2 : res Z) (b0 b1 : Z) : res Z :=
  if a0 <? b0 then
    let* (q_hat, r_hat) := dw a0 a1 b0 in
    let* a2 := a2 in
    let* r := umul (2 * W) q_hat b1 in
    let* gt := pair_gt r r_hat a2 in
    if gt then
      let* q_hat := usub W q_hat 1 in
      let '(r_hat, overflow) := p_overflowing_add W r_hat b0 in
      if negb overflow then
        let* r := umul (2 * W) q_hat b1 in
        let* gt := pair_gt r r_hat a2 in
        if gt then usub W q_hat 1 else Ok q_hat
      else Ok q_hat
    else Ok q_hat
  else Ok (2 ^ W - 1).

(** div.rs 341-419, one iteration of the main loop *)
Definition knuth_step_w (divisor : list Z) (n : nat) (b0 b1 : Z) (j : nat) (s : list Z * Z * list Z)
    : res (list Z * Z * list Z) :=
  let '(numerator, q) := s in
  let* a0 := apo_get numerator (j + n) in
  let* a1 := get (fst numerator) (j + n - 1) in
  let* q_hat := estimate_w a0 a1 (get (fst numerator) (j + n - 2)) b0 b1 in
  let* q_hat_v := full_mul_u64 divisor q_hat in
  let* (numerator, cy) := sub_mul numerator q_hat_v n j in
  let* (numerator, q_hat) :=
    (if (cy : bool) then
       let* q_hat := usub W q_hat 1 in
       let* numerator := add_back numerator divisor n j in
       Ok (numerator, q_hat)
     else Ok (numerator, q_hat)) in
  let* q := set q j q_hat in
  Ok (numerator, q).

(** div.rs 302-425 [div_rem_knuth] *)
Definition div_rem_knuth_w (numerator divisor : list Z) (n m : nat) : res (list Z * list Z) :=
  let* _ := assert_ (n + m <=? length numerator)%nat in
  let* top := get divisor (n - 1) in
  let shift := p_leading_zeros W top in
  let nlimbs := length divisor in
  let* divisor := shl_word divisor shift in
  let* num := full_shl numerator shift in
  let* b0 := get divisor (n - 1) in
  let* b1 := get divisor (n - 2) in
  let* (num, q) := for_range 0 (m + 1)
    (fun k s => knuth_step_w divisor n b0 b1 (m - k) s) (num, repeat 0 (length numerator)) in
  let* r := full_shr num shift in
  let* rem := truncate nlimbs r in
  Ok (q, rem).

(** div.rs 162-173 [full_gt] *)
Definition full_gt_w (numerator divisor : list Z) : res (list Z * list Z) :=
  let* n := last_index divisor in
  if (n =? 0)%nat then
    let* d := get divisor 0 in limb_padded_w numerator (length divisor) d
  else
    let* l := last_index numerator in
    let* _ := assert_ (n <=? l)%nat in
    div_rem_knuth_w numerator divisor (n + 1) (l - n).

(** div.rs 45-64 [full] *)
Definition div_full_w (numerator divisor : list Z) : res (list Z * list Z) :=
  let m := length numerator in
  let n := length divisor in
  if (n =? 1)%nat then
    let* d := get divisor 0 in limb_padded_w numerator n d
  else
    let* o := div_cmp numerator divisor in
    match o with
    | Lt => let* r := truncate n numerator in Ok (repeat 0 m, r)
    | Eq => let* q := scalar1 m 1 in let* r := scalar1 n 0 in Ok (q, r)
    | Gt =>
        let* z := is_zero numerator 0 in
        if z then let* q := scalar1 m 0 in let* r := scalar1 n 0 in Ok (q, r)
        else full_gt_w numerator divisor
    end.

(** div.rs 74-98 [wide] *)
Definition div_wide_w (numerator : list Z) (divisor : Z) : res (list Z * Z) :=
  let m := length numerator in
  let* z := (if (2 <=? m)%nat then is_zero numerator 2 else Ok false) in
  if z then
    let* n0 := get numerator 0 in
    let* n1 := get numerator 1 in
    if (n0 =? 0) && (n1 =? 0) then let* q := scalar1 m 0 in Ok (q, 0)
    else
      let* x := join_limbs n0 n1 in
      let* quo := udiv x divisor in
      let* rem := urem x divisor in
      let* q := scalar2 m quo in
      Ok (q, rem)
  else
    let* y := scalar2 2 divisor in
    let* o := div_cmp numerator y in
    let fin (s : list Z * list Z) : res (list Z * Z) :=
      let '(quo, rem) := s in
      let* r0 := get rem 0 in
      let* r1 := get rem 1 in
      let* r := join_limbs r0 r1 in
      Ok (quo, r) in
    match o with
    | Lt => let* r := truncate 2 numerator in fin (repeat 0 m, r)
    | Eq => let* q := scalar1 m 1 in Ok (q, 0)
    | Gt => let* s := full_gt_w numerator y in fin s
    end.

(** uint/wrapping.rs 228-238 [wrapping_div_rem] *)
Definition u_wrapping_div_rem_w (x n : list Z) : res (list Z * list Z) :=
  let* (div, rem) := div_full_w x n in
  let* div := mk div in
  let* rem := mk rem in
  Ok (div, rem).
(** int/wrapping.rs 74-99 [wrapping_div_rem_w] *)
Definition s_wrapping_div_rem_w (x n : list Z) : res (list Z * list Z) :=
  let* ux := unsigned_abs x in
  let* un := unsigned_abs n in
  let* (div, rem) := div_full_w ux un in
  let* div := mk div in
  let* div := as_signed div in
  let* rem := mk rem in
  let* rem := as_signed rem in
  let* sx := is_negative x in
  let* sn := is_negative n in
  let* div := (if negb (eqb sx sn) then s_wrapping_neg div else Ok div) in
  let* rem := (if sx then s_wrapping_neg rem else Ok rem) in
  Ok (div, rem).
Definition wrapping_div_rem_w (sg : bool) (x n : list Z) : res (list Z * list Z) :=
  if sg then s_wrapping_div_rem_w x n else u_wrapping_div_rem_w x n.

End Over.
End M.
