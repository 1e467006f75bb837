(** * Specification vocabulary for numerals

    Strings are lists of byte values.  Independent of the model. *)

Require Import ZArith List Bool.
Import ListNotations.
Local Open Scope Z_scope.

(** The value of an ASCII digit or letter (['0'..'9'], ['A'..'Z'], ['a'..'z']). *)
Definition digit_of (ch : Z) : option Z :=
  if (48 <=? ch) && (ch <=? 57) then Some (ch - 48)
  else if (65 <=? ch) && (ch <=? 90) then Some (ch - 55)
  else if (97 <=? ch) && (ch <=? 122) then Some (ch - 87)
  else None.
(** … if it is below the radix. *)
Definition digit_in (radix ch : Z) : option Z :=
  match digit_of ch with
  | Some d => if d <? radix then Some d else None
  | None => None
  end.
(** The value of a digit string, most significant digit first, after a prefix
    of value [acc]. *)
Fixpoint horner (radix acc : Z) (s : list Z) : option Z :=
  match s with
  | [] => Some acc
  | ch :: t => match digit_in radix ch with
               | Some d => horner radix (acc * radix + d) t
               | None => None
               end
  end.
Definition numval (radix : Z) (s : list Z) : option Z := horner radix 0 s.

(** [s] is a numeral for [v]: an optional sign and at least one digit.  ['+'] is
    43, ['-'] is 45; a minus is allowed for signed types only. *)
Definition numeral (signed : bool) (radix : Z) (s : list Z) (v : Z) : Prop :=
  exists body, body <> [] /\
    (((s = body \/ s = 43 :: body) /\ numval radix body = Some v) \/
     (signed = true /\ s = 45 :: body /\ numval radix body = Some (- v))).

(** The first thing that goes wrong when reading digits left to right with a
    largest allowed value. *)
Inductive scanned := Value (v : Z) | BadDigit | TooLarge.
Fixpoint scan (limit radix acc : Z) (s : list Z) : scanned :=
  match s with
  | [] => Value acc
  | ch :: t => match digit_in radix ch with
               | Some d => if acc * radix + d <=? limit then scan limit radix (acc * radix + d) t else TooLarge
               | None => BadDigit
               end
  end.

(** Reading a negative numeral the way the code does.  [half] is the magnitude
    of the smallest value.  A product between [half] and [half + slack] is not
    noticed to be out of range: as the last step it yields a positive number. *)
Fixpoint scan_neg (half slack radix acc : Z) (s : list Z) : scanned :=
  match s with
  | [] => Value (- acc)
  | ch :: t =>
      match digit_in radix ch with
      | None => BadDigit
      | Some d =>
          if acc * radix + d <=? half then scan_neg half slack radix (acc * radix + d) t
          else if (half <? acc * radix) && (acc * radix <? half + slack) then
            match t with
            | [] => Value (2 * half - (acc * radix + d))
            | ch' :: _ => match digit_in radix ch' with Some _ => TooLarge | None => BadDigit end
            end
          else TooLarge
      end
  end.

(** [s] is the canonical unsigned numeral of [v]: digits and upper-case
    letters, no superfluous leading zero. *)
Definition upper_digit (ch : Z) : Prop := 48 <= ch <= 57 \/ 65 <= ch <= 90.
Definition lower_digit (ch : Z) : Prop := 48 <= ch <= 57 \/ 97 <= ch <= 122.
Definition canonical (radix v : Z) (s : list Z) : Prop :=
  s <> [] /\ numval radix s = Some v /\ (hd 0 s = 48 -> s = [48]).
