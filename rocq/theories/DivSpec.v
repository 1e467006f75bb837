(** * Specification vocabulary for long division

    Plain integer arithmetic, independent of the model.  [x] is the numerator,
    [y] the divisor; both are scaled by the power of two that makes the
    divisor's top limb at least half the base. *)

Require Import ZArith List Bool.
Import ListNotations.
Local Open Scope Z_scope.

(** The quotient-digit estimate of algorithm D for a window [S] and an
    [n]-limb divisor [D], in base [2^w]: leading three limbs over leading two,
    or the largest digit when the leading limbs leave no room. *)
Definition digit_estimate (w : Z) (n : nat) (S D : Z) : Z :=
  let p k := 2 ^ (w * k) in
  if S / p (Z.of_nat n) <? D / p (Z.of_nat n - 1)
  then (S / p (Z.of_nat n - 2)) / (D / p (Z.of_nat n - 2))
  else 2 ^ w - 1.

(** The window at step [j]: what is left of [A] above limb [j] once all
    higher quotient digits have been subtracted. *)
Definition window (w : Z) (A D : Z) (j : nat) : Z :=
  (A / 2 ^ (w * Z.of_nat j)) mod (D * 2 ^ w).

(** The estimate at step [j] exceeds the true quotient digit. *)
Definition overestimated (w : Z) (n : nat) (A D : Z) (j : nat) : bool :=
  window w A D j / D <? digit_estimate w n (window w A D j) D.

(** The number of limbs of a positive value, and the normalising shift. *)
Definition limbs_of (w v : Z) : Z := Z.log2 v / w + 1.
Definition norm_shift (w v : Z) : Z := w * limbs_of w v - 1 - Z.log2 v.

(** Some step of the division of [x] by [y] overestimates. *)
Definition has_correction (w x y : Z) : bool :=
  let n := Z.to_nat (limbs_of w y) in
  let m := (Z.to_nat (limbs_of w x) - n)%nat in
  let s := norm_shift w y in
  existsb (overestimated w n (x * 2 ^ s) (y * 2 ^ s)) (seq 0 (m + 1)).

(** The stray carries left in the numerator, up to (excluding) limb [M]. *)
Definition stray (w : Z) (M : nat) (x y : Z) : Z :=
  let n := Z.to_nat (limbs_of w y) in
  let m := (Z.to_nat (limbs_of w x) - n)%nat in
  let s := norm_shift w y in
  fold_right (fun j acc =>
      (if overestimated w n (x * 2 ^ s) (y * 2 ^ s) j && (j + n <? M)%nat
       then 2 ^ (w * Z.of_nat (j + n) - s) else 0) + acc) 0 (seq 0 (m + 1)).

(** The outcome of dividing [n]-limb values [x] by [y]: quotient and
    remainder, or [None] for a panic.  Three deviations from exact division
    are visible here: [0 / 0] answers [(1, 0)], a needed correction with a
    divisor that fills all limbs panics, and one with a shorter divisor leaves
    stray carries in the remainder. *)
Definition div_outcome (w : Z) (n : nat) (x y : Z) : option (Z * Z) :=
  if x <? y then Some (0, x)
  else if x =? y then Some (1, 0)
  else if y =? 0 then None
  else if y <? 2 ^ w then Some (x / y, x mod y)
  else if (2 ^ (w * (Z.of_nat n - 1)) <=? y) && has_correction w x y then None
  else Some (x / y, x mod y + stray w n x y).

(** The divisions with an exact answer: numerator at most the divisor, divisor
    of one limb, no correction step needed, or only corrections whose stray
    carries fall off the top. *)
Definition exact_division (w : Z) (n : nat) (x y : Z) : Prop :=
  x <= y \/ y < 2 ^ w \/ has_correction w x y = false \/
  (y < 2 ^ (w * (Z.of_nat n - 1)) /\ stray w n x y = 0).

(** ** Division by a scalar of [bits] bits

    The numerator has [n] limbs.  One limb: schoolbook.  Two limbs: [0 / 0]
    answers [(0, 0)] and a needed correction panics.  More: stray carries end
    up in the remainder. *)
Definition scalar_outcome (w : Z) (n : nat) (bits x d : Z) : option (Z * Z) :=
  if bits <=? w then (if d =? 0 then None else Some (x / d, x mod d))
  else if x =? 0 then Some (0, 0)
  else if d =? 0 then None
  else if bits <=? 2 * w then
    if (2 ^ (2 * w) <=? x) && (2 ^ w <=? d) && has_correction w x d then None
    else Some (x / d, x mod d)
  else Some (x / d,
             (x mod d + if (2 ^ (2 * w) <=? x) && (d <? x) && (2 ^ w <=? d)
                        then stray w n x d else 0) mod 2 ^ 128).

(** The divisions by a scalar with an exact answer. *)
Definition exact_scalar (w : Z) (n : nat) (bits x d : Z) : Prop :=
  bits <= w \/ x < 2 ^ (2 * w) \/ d < 2 ^ w \/ x <= d \/
  (bits <= 2 * w /\ has_correction w x d = false) \/
  (2 * w < bits /\ stray w n x d mod 2 ^ 128 = 0).
