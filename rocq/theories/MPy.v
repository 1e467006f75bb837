(** * Model: the Python scripts of etc/

    etc/libdivide.py and etc/magic.py prepare divisions by a constant.  Python
    integers are unbounded, so values are [Z]; an exception is an explicit result.
    Sizes ([bits], [num_bits], [div_bits]) are taken as non-negative, where all the
    arithmetic of the scripts is on integers.  Not modelled: [is_valid] and
    [is_pow2] of magic.py (floating point); [math.log2] (37), whose rounded-up
    result is a parameter of [choose_multiplier]; the field [unsigned] (always
    [True]). *)

Require Import ZArith List Bool.
Import ListNotations.
Local Open Scope Z_scope.

(** ** Results of a call *)
Inductive exn := ZeroDivisionError | ValueError | UnboundLocalError | AssertionError | RecursionError | NotImplementedError.
(** [Runs]: the loop has not ended within the given number of turns *)
Inductive py (A : Type) := Ret (a : A) | Raise (e : exn) | Runs.
Arguments Ret {A} a. Arguments Raise {A} e. Arguments Runs {A}.
Definition pbind {A B} (m : py A) (k : A -> py B) : py B :=
  match m with Ret a => k a | Raise e => Raise e | Runs => Runs end.
Notation "'let!' p := m 'in' k" := (pbind m (fun p => k)) (at level 200, p pattern, m at level 100, k at level 200).

(** ** Operators of Python integers: shifts by a negative amount and division by zero raise *)
Definition py_shl (x s : Z) : py Z := if s <? 0 then Raise ValueError else Ret (Z.shiftl x s).
Definition py_shr (x s : Z) : py Z := if s <? 0 then Raise ValueError else Ret (Z.shiftr x s).
Definition py_div (x y : Z) : py Z := if y =? 0 then Raise ZeroDivisionError else Ret (x / y).
Definition py_mod (x y : Z) : py Z := if y =? 0 then Raise ZeroDivisionError else Ret (x mod y).
Definition py_assert (b : bool) : py unit := if b then Ret tt else Raise AssertionError.

(** ** etc/libdivide.py *)

(** libdivide.py 71-72 *)
Definition PY_UNIVERSAL := 0x3FFF.
Definition PY_ADD_MARKER := 0x4000.
(** libdivide.py 76-81 *)
Inductive algorithm := SHR | FAST | GENERAL.
(** libdivide.py 84-104 *)
Record divider := { dv_bits : Z; dv_divisor : Z; dv_magic : Z; dv_more : Z; dv_algorithm : algorithm; dv_branchfree : bool }.

(** 134-135: the digits of [format], most significant first; non-negative value *)
Definition bin_digits (value bits : Z) : list bool :=
  let len := Z.max bits (Z.max 1 (if value =? 0 then 1 else Z.log2 value + 1)) in
  map (fun i => Z.testbit value (len - 1 - Z.of_nat i)) (seq 0 (Z.to_nat len)).
(** [str.index] *)
Fixpoint index_one (l : list bool) : option Z :=
  match l with
  | [] => None
  | b :: t => if b then Some 0 else match index_one t with Some i => Some (i + 1) | None => None end
  end.
(** libdivide.py 132-139 [leading_zeros] *)
Definition py_leading_zeros (value bits : Z) : Z :=
  match index_one (bin_digits value bits) with Some i => i | None => bits end.
(** libdivide.py 142-144 [mulhi], 147-149 [mullo] *)
Definition py_mulhi (x y bits : Z) : py Z := py_shr (x * y) bits.
Definition py_mullo (x y bits : Z) : py Z := let! m := py_shl 1 bits in Ret (Z.land (x * y) (m - 1)).

(** libdivide.py 152-214 [unsigned_gen_impl].  [more] is [None] while unassigned: reading
    it then raises (210). *)
Definition unsigned_gen_impl (bits divisor : Z) (branchfree : bool) : py divider :=
  if divisor =? 0 then Raise ZeroDivisionError
  else if (2 ^ bits <? divisor) || (divisor <? 1) then Raise ValueError
  else
    let floor_log_2_d := bits - 1 - py_leading_zeros divisor bits in
    if Z.land divisor (divisor - 1) =? 0 then
      let more := floor_log_2_d - Z.b2z branchfree in
      Ret {| dv_bits := bits; dv_divisor := divisor; dv_magic := 0; dv_more := more; dv_algorithm := SHR; dv_branchfree := branchfree |}
    else
      let! one := py_shl 1 bits in
      let mask := one - 1 in
      let! d_power := py_shl 1 (floor_log_2_d + bits) in
      let! proposed_m := py_div d_power divisor in
      let! rem := py_mod d_power divisor in
      let e := divisor - rem in
      let! lim := (if branchfree then Ret 0 else py_shl 1 floor_log_2_d) in
      let '(proposed_m, more, algo) :=
        if negb branchfree && (e <? lim) then (proposed_m, Some floor_log_2_d, FAST)
        else
          let proposed_m := Z.land (2 * proposed_m) mask in
          let twice_rem := Z.land (rem + rem) mask in
          if (divisor <=? twice_rem) || (twice_rem <? rem) then
            (Z.land (proposed_m + 1) mask, Some (Z.lor floor_log_2_d PY_ADD_MARKER), GENERAL)
          else (proposed_m, None, GENERAL) in
      match more with
      | None => Raise UnboundLocalError
      | Some more =>
          Ret {| dv_bits := bits; dv_divisor := divisor; dv_magic := Z.land (1 + proposed_m) mask; dv_more := more;
                 dv_algorithm := algo; dv_branchfree := branchfree |}
      end.
(** libdivide.py 217-219 *)
Definition unsigned_gen_branched (bits divisor : Z) : py divider := unsigned_gen_impl bits divisor false.
(** libdivide.py 222-226 *)
Definition unsigned_gen_branchfree (bits divisor : Z) : py divider :=
  let! d := unsigned_gen_impl bits divisor true in
  Ret {| dv_bits := dv_bits d; dv_divisor := dv_divisor d; dv_magic := dv_magic d; dv_more := Z.land (dv_more d) PY_UNIVERSAL;
         dv_algorithm := dv_algorithm d; dv_branchfree := dv_branchfree d |}.
(** libdivide.py 106-111 [Divider.unsigned_gen] *)
Definition unsigned_gen (bits divisor : Z) (branchfree : bool) : py divider :=
  if branchfree then unsigned_gen_branchfree bits divisor else unsigned_gen_branched bits divisor.

(** libdivide.py 229-253 *)
Definition unsigned_divide_branched (numerator : Z) (d : divider) : py Z :=
  let! _ := py_assert (negb (dv_branchfree d)) in
  let! _ := py_assert (0 <? numerator) in
  if dv_magic d =? 0 then py_shr numerator (dv_more d)
  else
    let! one := py_shl 1 (dv_bits d) in
    let mask := one - 1 in
    let! q := py_mulhi (dv_magic d) numerator (dv_bits d) in
    if negb (Z.land (dv_more d) PY_ADD_MARKER =? 0) then
      let t := Z.shiftr (Z.land (numerator - 1) mask) 1 + q in
      py_shr (Z.land t mask) (Z.land (dv_more d) PY_UNIVERSAL)
    else py_shr q (dv_more d).
(** libdivide.py 256-274 *)
Definition unsigned_divide_branchfree (numerator : Z) (d : divider) : py Z :=
  let! _ := py_assert (dv_branchfree d) in
  let! _ := py_assert (0 <? numerator) in
  let! one := py_shl 1 (dv_bits d) in
  let mask := one - 1 in
  let! q := py_mulhi (dv_magic d) numerator (dv_bits d) in
  let t := Z.shiftr (Z.land (numerator - 1) mask) 1 + q in
  py_shr (Z.land t mask) (dv_more d).
(** libdivide.py 113-117 [Divider.unsigned_divide] *)
Definition unsigned_divide (d : divider) (numerator : Z) : py Z :=
  if dv_branchfree d then unsigned_divide_branchfree numerator d else unsigned_divide_branched numerator d.
(** libdivide.py 119-125 [Divider.unsigned_divide_remainder] *)
Definition unsigned_divide_remainder (d : divider) (numerator : Z) : py (Z * Z) :=
  let! one := py_shl 1 (dv_bits d) in
  let mask := one - 1 in
  let! quotient := unsigned_divide d numerator in
  let remainder := numerator - Z.land (dv_divisor d * quotient) mask in
  Ret (quotient, Z.land remainder mask).
(** libdivide.py 127-129 [Divider.unsigned_remainder]: it calls itself; [depth] is the number of
    calls the interpreter still allows *)
Fixpoint unsigned_remainder (depth : nat) (d : divider) (numerator : Z) : py Z :=
  match depth with O => Raise RecursionError | S k => unsigned_remainder k d numerator end.

(** ** etc/magic.py *)

(** magic.py 42-45; each turn lowers [sh_post], which is positive *)
Fixpoint reduce_multiplier (turns : nat) (m_low m_high sh_post : Z) : Z * Z :=
  match turns with
  | O => (m_high, sh_post)
  | S k =>
      if (m_low / 2 <? m_high / 2) && (0 <? sh_post)
      then reduce_multiplier k (m_low / 2) (m_high / 2) (sh_post - 1)
      else (m_high, sh_post)
  end.
(** magic.py 24-47 [choose_multiplier]; [div_bits] is the result of line 37, non-negative *)
Definition choose_multiplier (divisor bits : Z) (is_signed : bool) (div_bits : Z) : py (Z * Z * Z) :=
  let precision := if is_signed then bits - 1 else bits in
  let! m_low := py_div (2 ^ (bits + div_bits)) divisor in
  let! m_high := py_div (2 ^ (bits + div_bits) + 2 ^ (bits + div_bits - precision)) divisor in
  let '(m_high, sh_post) := reduce_multiplier (Z.to_nat div_bits) m_low m_high div_bits in
  Ret (m_high, sh_post, div_bits).
(** magic.py 50-59 [fast_shift] from [n], at most [turns] turns *)
Fixpoint fast_shift_from (turns : nat) (divisor n : Z) : py Z :=
  match turns with
  | O => Runs
  | S k => if divisor mod 2 ^ (n + 1) =? 0 then fast_shift_from k divisor (n + 1) else Ret n
  end.
Definition fast_shift (turns : nat) (divisor : Z) : py Z := fast_shift_from turns divisor 0.
(** magic.py 67-80 [calculate_factors]; [log2] stands for line 37 *)
Definition calculate_factors (turns : nat) (log2 d num_bits div_bits : Z) : py (Z * Z * Z * Z) :=
  let! fast_shr := fast_shift turns d in
  let! r := choose_multiplier d num_bits false log2 in
  let '(factor, factor_shr, d_bits) := r in
  if 2 ^ num_bits <=? factor then Raise NotImplementedError
  else if negb (fast_shr =? 0) then
    let! fast := py_shl 1 (div_bits + fast_shr) in
    Ret (fast, fast_shr, factor, factor_shr)
  else Raise NotImplementedError.
(** magic.py 95-114 [mulhi]; in 106 the sum is formed before the mask *)
Definition magic_mulhi (x y half_bits : Z) : py Z :=
  let y_mask := 2 ^ half_bits - 1 in
  let x0 := Z.land x y_mask in
  let! x1 := py_shr x half_bits in let x1 := Z.land x1 y_mask in
  let y0 := Z.land y y_mask in
  let! y1 := py_shr y half_bits in let y1 := Z.land y1 y_mask in
  let w0 := Z.land (x0 * y0) y_mask in
  let! w0h := py_shr w0 half_bits in
  let m := Z.land (Z.land (x0 * y1) y_mask + w0h) y_mask in
  let w1 := Z.land m y_mask in
  let! mh := py_shr m half_bits in
  let w2 := Z.land mh y_mask in
  let! w3 := py_shr (x1 * y0 + w1) half_bits in let w3 := Z.land w3 y_mask in
  let p0 := Z.land (x1 * y1) y_mask in
  let p1 := Z.land (p0 + w2) y_mask in
  let p2 := Z.land (p1 + w3) y_mask in
  Ret p2.
(** magic.py 83-92 [fast_divrem] *)
Definition fast_divrem (num den fast fast_shr factor factor_shr num_bits div_bits : Z) : py (Z * Z) :=
  let div_mask := 2 ^ div_bits - 1 in
  let num_mask := 2 ^ num_bits - 1 in
  let! quot :=
    (if num <? fast then
      let! a := py_shr num fast_shr in
      let! b := py_shr den fast_shr in
      py_div (Z.land a div_mask) b
    else
      let! a := magic_mulhi num factor div_bits in
      py_shr a factor_shr) in
  let rem := Z.land (num - Z.land (quot * den) num_mask) div_mask in
  Ret (quot, rem).
