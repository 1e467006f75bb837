(** * Model: the program that prints the benchmark results

    devel/bin/print-benches.rs.  A text is the list of its Unicode scalar values.
    An [f64] is a [spec_float] of the standard library with 53 bits and largest
    exponent 1024 ([f64_ok]).  [{v:.3}] of core is the exact decimal value rounded to
    the nearest thousandth, ties to even.  The JSON reader of serde is any function
    from texts to records.  The file system is a tree; a link is followed when a path
    runs through it, and is not a directory in a listing. *)

Require Import ZArith List Bool Floats.SpecFloat.
Import ListNotations.
Local Open Scope Z_scope.

Definition text : Type := list Z.
Definition text_eqb (a b : text) : bool := if list_eq_dec Z.eq_dec a b then true else false.

(** ** Numbers *)

Definition f64 : Type := spec_float.
Definition f64_ok (v : f64) : Prop := valid_binary 53 1024 v = true.
Definition f64_lt (a b : f64) : bool := SFltb a b.
Definition f64_div (a b : f64) : f64 := SFdiv 53 1024 a b.
(** the [f64] of an integer literal *)
Definition f64_of (z : Z) : f64 := binary_normalize 53 1024 z 0 false.

(** Decimal digits of [n >= 0] in front of [acc]. *)
Fixpoint dec_from (fuel : nat) (n : Z) (acc : text) : text :=
  match fuel with
  | O => acc
  | S fuel =>
      let acc := (48 + n mod 10) :: acc in
      if n / 10 =? 0 then acc else dec_from fuel (n / 10) acc
  end.
Definition dec (n : Z) : text := dec_from (S (Z.to_nat (Z.log2 n))) n [].
(** Three digits. *)
Definition dec3 (n : Z) : text := [48 + n / 100; 48 + n / 10 mod 10; 48 + n mod 10].
(** Rounding [n / d] to the nearest integer, ties to even. *)
Definition half_even (n d : Z) : Z :=
  let q := n / d in
  let r := 2 * (n mod d) in
  if r <? d then q else if d <? r then q + 1 else if Z.even q then q else q + 1.
(** [m * 2 ^ e] in thousandths *)
Definition thousandths (m e : Z) : Z :=
  if 0 <=? e then m * 1000 * 2 ^ e else half_even (m * 1000) (2 ^ (- e)).
(** [format!("{v:.3}")] *)
Definition fixed3 (v : f64) : text :=
  let body t := dec (t / 1000) ++ 46 :: dec3 (t mod 1000) in
  let signed (s : bool) t := if s then 45 :: t else t in
  match v with
  | S754_nan => [78; 97; 78]
  | S754_infinity s => signed s [105; 110; 102]
  | S754_zero s => signed s (body 0)
  | S754_finite s m e => signed s (body (thousandths (Zpos m) e))
  end.

(** print-benches.rs 108-125 [human_number] *)
Definition NS : text := [32; 110; 115].
Definition US : text := [32; 181; 115].
Definition MS : text := [32; 109; 115].
Definition SEC : text := [32; 32; 115].
Definition MICROS : f64 := Eval vm_compute in f64_of 1000.
Definition MILLIS : f64 := Eval vm_compute in f64_of 1000000.
Definition SECS : f64 := Eval vm_compute in f64_of 1000000000.
Definition human_number (value : f64) : text :=
  if f64_lt value MICROS then fixed3 value ++ NS
  else if f64_lt value MILLIS then fixed3 (f64_div value MICROS) ++ US
  else if f64_lt value SECS then fixed3 (f64_div value MILLIS) ++ MS
  else fixed3 (f64_div value SECS) ++ SEC.

(** ** Records *)

(** print-benches.rs 30-36 *)
Record confidence_interval := { confidence_level : f64; lower_bound : f64; upper_bound : f64 }.
(** print-benches.rs 22-28 *)
Record estimate := { point_estimate : f64; standard_error : f64; interval : confidence_interval }.
(** print-benches.rs 10-20 *)
Record estimates := {
  mean : estimate; median : option estimate; slope : option estimate;
  median_abs_dev : option estimate; std_dev : option estimate }.
(** print-benches.rs 38-51 *)
Record benchmark := {
  group_id : text; title : text; function_id : text; full_id : text;
  value_str : option text; throughput : option text; directory_name : option text }.

(** ** Files *)

(** A file is its text, or nothing when reading it fails.  An entry of a listing that
    cannot be read is [None]; [Untyped] is one whose file type cannot be told. *)
Inductive node :=
| File (content : option text)
| Dir (readable : bool) (es : list (option (text * node)))
| Link (t : option node)
| Untyped (t : node).
Definition entries : Type := list (option (text * node)).

Fixpoint follow (n : node) : option node :=
  match n with
  | File _ | Dir _ _ => Some n
  | Link (Some t) => follow t
  | Link None => None
  | Untyped t => follow t
  end.
Fixpoint find_entry (nm : text) (es : entries) : option node :=
  match es with
  | [] => None
  | Some (nm', n) :: es => if text_eqb nm nm' then Some n else find_entry nm es
  | None :: es => find_entry nm es
  end.
(** [path.join(nm)] *)
Definition join (n : option node) (nm : text) : option node :=
  match n with
  | Some n => match follow n with Some (Dir _ es) => find_entry nm es | _ => None end
  | None => None
  end.
Definition walk (root : node) (path : list text) : option node := fold_left join path (Some root).
(** [fs::read_to_string] *)
Definition read_to_string (n : option node) : option text :=
  match n with
  | Some n => match follow n with Some (File c) => c | _ => None end
  | None => None
  end.
(** [path.read_dir()] *)
Definition read_dir (n : option node) : option entries :=
  match n with
  | Some n => match follow n with Some (Dir true es) => Some es | _ => None end
  | None => None
  end.
(** [x.file_type().expect(..).is_dir()]; [None] is the panic *)
Definition is_dir (n : node) : option bool :=
  match n with Dir _ _ => Some true | File _ | Link _ => Some false | Untyped _ => None end.

(** ** The program *)

(** [io::Result], with the panics. *)
Inductive err := System | NotFound (msg : text).
Inductive io (A : Type) := Got (a : A) | Fail (e : err) | Crash.
Arguments Got {A}. Arguments Fail {A}. Arguments Crash {A}.
Definition andThen {A B} (m : io A) (k : A -> io B) : io B :=
  match m with Got a => k a | Fail e => Fail e | Crash => Crash end.
Notation "'let?' p := m 'in' k" := (andThen m (fun p => k)) (at level 200, p pattern, k at level 200).

Definition TARGET : text := [116; 97; 114; 103; 101; 116].
Definition CRITERION : text := [99; 114; 105; 116; 101; 114; 105; 111; 110].
Definition REPORT : text := [114; 101; 112; 111; 114; 116].
Definition BASE : text := [98; 97; 115; 101].
Definition JSON : text := [46; 106; 115; 111; 110].
Definition BENCHMARK_JSON : text := [98; 101; 110; 99; 104; 109; 97; 114; 107] ++ JSON.
Definition ESTIMATES_JSON : text := [101; 115; 116; 105; 109; 97; 116; 101; 115] ++ JSON.
Definition NOT_FOUND : text := [32; 110; 111; 116; 32; 102; 111; 117; 110; 100].

(** print-benches.rs 56-58: the loop, on the components of the path, last first; the
    root has no name and no parent *)
Fixpoint climb (rpath : list text) : io (list text) :=
  match rpath with
  | [] => Crash
  | nm :: up => if text_eqb nm TARGET then Got rpath else climb up
  end.
(** print-benches.rs 53-61 [target_directory]; [exe] is what [env::current_exe()] gives *)
Definition target_directory (exe : option (list text)) : io (list text) :=
  match exe with
  | None => Fail System
  | Some path => let? r := climb (rev path) in Got (rev r)
  end.
(** print-benches.rs 63-65 *)
Definition criterion_directory (exe : option (list text)) : io (list text) :=
  let? t := target_directory exe in Got (t ++ [CRITERION]).
(** print-benches.rs 67-74: [path] is the directory [base] at both calls, so its name
    is [BASE] *)
Definition file_not_found_error (nm : text) : err := NotFound (nm ++ NOT_FOUND).

Section Program.
(** [serde_json::from_str] at the two types; [None] is an error *)
Variable from_str_b : text -> option benchmark.
Variable from_str_e : text -> option estimates.
(** whether the terminal shows colours *)
Variable colours : bool.

(** print-benches.rs 96-100, 102-106: [base] is the directory [path]; [unwrap] panics *)
Definition read_record {A} (file : text) (from_str : text -> option A) (base : option node) : io A :=
  match read_to_string (join base file) with
  | None => Fail (file_not_found_error BASE)
  | Some data => match from_str data with Some r => Got r | None => Crash end
  end.
Definition read_benchmark : option node -> io benchmark := read_record BENCHMARK_JSON from_str_b.
Definition read_estimates : option node -> io estimates := read_record ESTIMATES_JSON from_str_e.

(** print-benches.rs 76-84 [get_groups], 86-94 [get_benches] and the [for] loops over
    them: the iterators are lazy, so an entry is looked at when its turn comes *)
Fixpoint each (body : node -> io (list (benchmark * estimates))) (es : entries)
  : io (list (benchmark * estimates)) :=
  match es with
  | [] => Got []
  | None :: _ => Crash
  | Some (nm, n) :: es =>
      match is_dir n with
      | None => Crash
      | Some false => each body es
      | Some true =>
          if text_eqb nm REPORT then each body es
          else let? l := body n in let? r := each body es in Got (l ++ r)
      end
  end.
(** print-benches.rs 132-136 *)
Definition one_bench (n : node) : io (list (benchmark * estimates)) :=
  let base := join (Some n) BASE in
  let? b := read_benchmark base in
  let? e := read_estimates base in
  Got [(b, e)].
(** print-benches.rs 131-137 *)
Definition one_group (n : node) : io (list (benchmark * estimates)) :=
  match read_dir (Some n) with None => Fail System | Some es => each one_bench es end.
Definition all_groups (directory : option node) : io (list (benchmark * estimates)) :=
  match read_dir directory with None => Fail System | Some es => each one_group es end.

(** [str::len] *)
Definition len8 (t : text) : nat :=
  fold_right (fun ch n => Nat.add (Z.to_nat (if ch <? 128 then 1 else if ch <? 2048 then 2 else if ch <? 65536 then 3 else 4)) n)
    O t.
(** print-benches.rs 143-148 *)
Definition max_length (l : list (benchmark * estimates)) : nat :=
  fold_right (fun p n => Nat.max (len8 (title (fst p))) n) 0%nat l.
(** [{:width$}]: the width counts characters *)
Definition pad (w : nat) (t : text) : text := t ++ repeat 32 (w - length t).
(** owo-colors: the escape sequences around the padded text *)
Definition paint (on off : text) (t : text) : text :=
  if colours then [27; 91] ++ on ++ [109] ++ t ++ [27; 91] ++ off ++ [109] else t.
Definition cyan : text -> text := paint [51; 54] [51; 57].
Definition yellow : text -> text := paint [51; 51] [51; 57].
Definition dimmed : text -> text := paint [50] [48].
(** print-benches.rs 149-163 *)
Definition line (w : nat) (p : benchmark * estimates) : text :=
  let (b, e) := p in
  let metric := match slope e with Some s => s | None => mean e end in
  cyan (pad w (title b)) ++ [58; 32] ++ yellow (human_number (point_estimate metric)) ++ [32; 177; 32]
    ++ human_number (standard_error metric) ++ [32; 40]
    ++ dimmed (human_number (lower_bound (interval metric))) ++ [44; 32]
    ++ dimmed (human_number (upper_bound (interval metric))) ++ [41].
(** print-benches.rs 127-166 [main]: the lines printed *)
Definition main (exe : option (list text)) (root : node) : io (list text) :=
  let? directory := criterion_directory exe in
  let? benches := all_groups (walk root directory) in
  Got (map (line (max_length benches)) benches).

End Program.
