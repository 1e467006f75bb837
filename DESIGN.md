# Formal model of i256-rs (Rocq/Coq 8.16.1)

## What is modelled

The crate defines fixed-width big integers `u256/i256` (and 384/512/1024-bit
feature types) stored as arrays of limbs.  The model is parametric in

* `W`  - limb width in bits (32 or 64: `ULimb`, src/types.rs),
* `N`  - number of limbs (`LIMBS`), with `N*W` a multiple of 128, at least 256
  and below 2^31 (predicate `Valid` in Spec.v; the bound only keeps `u32` bit
  counts from overflowing, the crate's largest type has 1024 bits),
* `chk` - `cfg!(have_overflow_checks)` (build.rs),
* `dbg` - `cfg!(debug_assertions)`, i.e. whether `debug_assert!` is compiled in,
* `be` - target byte order, only in the layout file (see below).

A value is a `list Z` of `N` limbs, each in `[0, 2^W)`, in *logical* order
(least significant first).  All arithmetic code in /repo indexes through
`ne_index!`, which maps a logical index to the storage index, so logical order
is what that code sees on both byte orders.  The code that looks at storage
order directly (transmutes in shared/endian.rs, `to_ne_index`) is modelled
separately (MLayout.v) with an explicit byte-order flag, and PLayout2.v proves
the logical view used elsewhere right on both.

Every Rust function is a Gallina function returning `res A`, which is
`Ok a | Panic | OutOfFuel`.  Array accesses are bounds-checked (`Panic`), plain
`+ - *` on machine integers go through a primitive that panics on overflow when
`chk` and wraps otherwise, `assert!` is an explicit test, `debug_assert!` one
that is skipped when `dbg` is off, and `while` loops are either counted loops
or loops with fuel whose exhaustion is the distinct value `OutOfFuel`.  A theorem that says "returns Ok r" therefore
also says: no panic, no failing assertion, terminates, in every build.

| model file | code |
|---|---|
| Prim.v | std primitive integer operations, arrays, loops |
| MAdd.v | math/bigint.rs, math/add.rs, math/sub.rs |
| MMul.v | math/mul.rs |
| MShift.v | math/shift.rs, math/rotate.rs, wide view of an array |
| MDiv.v | math/div.rs |
| MCore.v | constants, shared/casts.rs, bitops.rs, ord.rs, shift.rs, unbounded.rs, shift parts of checked/strict/overflowing, limb access, sign tests |
| MArith.v | add/sub/mul/neg/abs/pow families (wrapping, overflowing, checked, strict, saturating, unchecked, operators), mixed-sign forms, powers of two, midpoint, carrying/widening forms |
| MApi.v | division families, Euclidean, floor/ceil, multiples, ilog |
| MScalar.v | uint/limb.rs, int/limb.rs, shared/limb.rs, util.rs |
| MParse.v | parse.rs, FromStr |
| MWrite.v | write.rs, Display/Binary/Octal/Hex/Exp |
| MLayout.v | shared/endian.rs, index helpers, limb/wide accessors, on both byte orders |
| MTraits.v | TryFrom, num-traits impls that are not one-line delegations |
| MForms.v | single-result scalar divisions, by-reference and assigning operators, Default, Debug, From, num-traits forwards, error.rs |
| MLimb.v | rest of math/bigint.rs, derived Hash, Saturating/FromBytes/ToBytes/AsPrimitive forwards |
| MAsm.v | the x86_64 asm block of `div_rem_word` as a register machine; the division routines over a word division |
| MQuick.v | random tests of devel/tests/ops.rs, with exact integers for the other library |
| MNative.v | random tests of devel/tests/native_math.rs and devel/tests/div_math.rs, with exact integers for the primitives |
| MDevel.v | algorithms compared in devel/benches: shift_algos.rs, mul_algos.rs, bit_algos.rs, div_by_mul.rs |
| MBench.v | random benchmarks: devel/benches/{input,add,sub,mul,div,shift,rotate}.rs and devel/src/lib.rs (not: the calls of other libraries; timing) |
| MPy.v | etc/libdivide.py and etc/magic.py, exceptions as results (not: the two floating-point predicates; the logarithm of line 37 is a parameter) |
| MFix.v | *not the code*: the routines behind the findings, each with one place changed; their callers over an arbitrary routine (see Corrected routines) |
| MFix2.v | *not the code*: the same for the signed product, the 128-bit scalar helpers and the lone sign, with their callers |
| MFix3.v | *not the code*: the remaining findings, each with one place changed |
| MCost.v | the product and division routines of MMul.v, MArith.v, MScalar.v and MDiv.v again, each run carrying the list of its limb products and divisions |
| MCost2.v | the reading and writing loops of MParse.v and MWrite.v again, in the same way |
| MCost3.v | the remaining powers and the logarithm to any base again, in the same way; a variant of the logarithm that divides once |
| MDraft.v | the base-ten logarithms that uint/checked.rs, uint/ops.rs, int/checked.rs and int/ops.rs hold as comments |
| MBuild.v | build.rs, and every definition that looks at `cfg!(have_overflow_checks)` or calls one that does, again with the flag apart from the crate's own overflow setting |
| MUnsafe.v | the `unchecked_*` methods with undefined behaviour as an outcome; the sizes on both sides of every `transmute` |
| MTrace.v | addition, subtraction, products, bit operations, shifts, rotations and comparisons again, recording every array element read or written and the outcome of every condition on data (loop counters against fixed bounds are not recorded) |
| SrcText.v | the text of math/bigint.rs, add.rs, sub.rs, mul.rs, shift.rs, rotate.rs and of `limb_function!` of util.rs, word for word (tools/check_text.py compares it with /repo) |
| MText.v, MRun.v | *not the code*: a lexer, macro expander, parser and evaluator for the part of Rust that text is written in; what is not understood is `OutOfFuel`, never a value |
| MOrd.v | the `Ord` and `PartialOrd` impls of shared/ord.rs, and the `max`, `min`, `clamp` clients get from std (bodies from core::cmp, not in /repo) |
| MReport.v | devel/bin/print-benches.rs: times as `f64`, their texts, the search for the results, the table; the JSON reader is any function |
| MListing.v | the x86_64 listings in the documentation of math/add.rs, sub.rs and rotate.rs with a machine to run them (not: stack, faults; flags a listing does not read after a shift) |
| Lang.v | *not the code*: a language of client programs over the two types and its meaning over the integers |
| FlagSpec.v | *not the code*: what Rust's own integers print for every combination of flags |
| MFix4.v | the formatting traits corrected for all flags (C101) |
| LangText.v | *not the code*: the same language with reading of input lines and printing, and its meaning over integers and texts |

Facts.v and the P*.v files hold proofs; Props*.v hold the property theorems
(named after the property id), examples meeting their hypotheses, and the
`Print Assumptions` commands.  RepoTests.v is a conformance check of the hand
translation: it runs the literal cases of the repository's own tests (inputs
and expected values written out in the test files) on the model.

### Simplifications and what is not modelled

* The const-generic lengths are list lengths; macro instantiations for u32/u64
  are one definition with parameter `W`.
* A reference is the value it points to, and `&mut self` is the value left in
  it.  `Clone`/`Copy` derives are not modelled; `Hash` is the data fed to the
  hasher (MLimb.v).
* Text of panic messages; the texts of error.rs are modelled (MForms.v).
* `unchecked_*`: the undefined-behaviour case is `Panic` in MArith.v and an outcome of
  its own in MUnsafe.v.
* f32/f64 conversions (`unimplemented!()` in the code), commented-out `isqrt`
  (`todo!()`), documentation (but see MListing.v); the tests beyond
  RepoTests.v, MQuick.v and MNative.v.
* Loops of the form `while i < n` are counted loops; a `break` is a flag.

## Specification

`Spec.v` holds the independent vocabulary: `uval` (base 2^W value of a limb
list), `sval` (two's complement value), `wf` (right length, limbs in range),
range predicates, `returns_*` (what a call returns).  DivSpec.v says when a
division is exact, TextSpec.v what a numeral denotes.  Specifications use `Z`
arithmetic, `Z.div`, `Z.modulo`, `Z.quot`, `Z.rem`, `Z.testbit`, `Z.pow`,
`Z.log2`.

## Trusted base

* The Coq 8.16.1 kernel, including `vm_compute` (used for examples and for
  refutation witnesses).
* The reading of Rust std semantics: primitive integers (`Prim.v`), decimal
  `from_str` of u64/i64/u128/i128 and `Display` of usize (MParse.v, MWrite.v),
  `str::from_utf8` on ASCII, `to_ascii_lowercase/uppercase`, `transmute` of
  integer arrays as bytes in native order (MLayout.v), num-traits' own
  `to_i128`/`to_u128` on primitives (MTraits.v).  For MReport.v: `f64` is the
  standard library's `SpecFloat` at 53 bits, and `{:.3}` rounds the exact value.
* The hand translation of Rust text to Gallina; each definition cites file and
  lines and notes simplifications.  For math/add.rs, sub.rs, mul.rs, shift.rs
  and rotate.rs the translation is not trusted: C111 and C112 prove it equal to running the text, and what
  is trusted there is the reading of Rust in MText.v and MRun.v (the copy of the
  text, types of literals, little-endian `ne_index!`, macro fragments that end
  at a comma).
* Axioms: none.  `Print Assumptions` answers "Closed under the global context"
  for every property theorem (the commands are at the end of each Props file,
  so the build log shows it).  The `Coq.ssr.ssrunder` constants that a checker
  lists come with standard library modules; no theorem depends on them.

## Findings (properties that are false of the code)

Each has a `_refuted` theorem with a concrete witness and the strongest true
statement next to it.

1. Long division add-back step (src/math/div.rs 397-415) panics or corrupts
   the remainder (C07, C08; inherited by C11-C14, C34, C50).
2. Signed overflowing multiplication misses overflow when the truncated
   product has the top limb of MIN (src/math/mul.rs 433-471) (C06; inherited by
   pow, saturating, checked, operators, scalar forms C42 and parsing C27).
3. `to_str_radix` is wrong for negative signed values (src/write.rs) (C29, C32).
4. 32-bit limbs: signed 128-bit scalar addition and subtraction always trip the
   `M > N` assertion and multiplication permutes digits (src/util.rs 124-165)
   (C43).
5. `"+"` and `"-"` parse as 0 (src/parse.rs); a negative numeral in the window
   of finding 2 parses as a positive number (C27); the error kind can be wrong
   there (C28); `FromStr` and `from_str_radix(.., 10)` differ on lone signs (C51).
6. `<<`/`>>` by `u8`/`i8` always panic with overflow checks (C45).
7. `<<`/`>>` by the type itself never check the amount (C45).
8. `wrapping_div_rem(0, 0)` returns (1, 0) instead of panicking (C10); scalar
   0/0 likewise for wide scalars (C50).
9. `TryFrom<uN> for iN` rejects `iN::MAX` (C26).
10. `checked_ilog(self < base)` is `None` instead of `Some(0)`, the signed
    version panics; base 1 never returns (C34).
11. Signed `midpoint` rounds toward zero, not toward negative infinity (C36).
12. Signed `carrying_add`/`borrowing_sub` flag over-reports (C39).
13. Signed `unbounded_shr` of a negative value by BITS or more is 0, not -1 (C16).
14. Division by u128/wide scalars: panic, wrong remainder (C50).
15. With `#`, padding goes between prefix and digits and the prefix is not
    counted; `Display` ignores the width (C52).
16. One-digit values print as `5.e0` in exponent form (C53).
17. `NumCast` between big integers rejects values beyond 128 bits (C56).
18. num-traits `is_positive` is true at zero (C57).
19. Results of signed checked multiplication, of division, of signed 128-bit
    scalar operations and of parsing negative numerals depend on the limb size
    through findings 1, 2, 4 and 5 (C47, C64).
20. Signed `div_euclid`, `rem_euclid`, `div_floor`, `div_ceil` do not always
    panic on a zero divisor or MIN / -1 although documented to (C60).
21. `abs` of the minimum panics in builds without overflow checks too, where
    the primitive wraps (C35, `C35_abs_variants`).
22. Two named forms depend on the overflow-check setting through an inner
    primitive operation: `to_str_radix` of a negative number and
    `wrapping_div_rem` of a negative value by a wide scalar with a wrong
    remainder (C59).
23. The repository's own random tests fail on inputs that random sampling does
    not meet: signed products and powers in the window of finding 2, division
    where finding 1 applies (C68).
24. The missed overflow of finding 2 is not special to the 256-bit
    types: the array functions miss it at every length.  With two 32-bit limbs,
    `-3 * 3074457345618258603` overflows a 64-bit number unseen, so three tests
    of native_math.rs are false as stated (C69, C70).
25. The signed array functions taking an unsigned double-limb scalar read it as
    negative on two-limb arrays, so their overflow flag is wrong there (C69).
    The 256-bit types have at least four limbs.
26. devel/benches/div_by_mul.rs: `mulhi` adds the low half of the middle sum where
    the high half is due, so `divide_by_num` is wrong (10/10 = 0), and
    `div_rem_by_num` multiplies the quotient by the magic number instead of the
    divisor.  devel/benches/shift_algos.rs: the left shifts read the pair least word
    first, the right shifts most word first (C71).
27. etc/libdivide.py: the general case of the branching generator always raises
    (variable `more` unassigned); the branchless generator raises unless the divisor
    is a power of two or at most twice the rest; the branchless sum uses `n - 1` where
    `n - q` is due; the divisor 2^bits passes the range check and is divided as
    2^(bits-1); sizes above 2^14 collide with the flag bit; `unsigned_remainder` calls
    itself.  etc/magic.py: `mulhi` masks away needed words; `fast_shift(0)` does not
    end (C72).
28. devel/benches: the division benchmarks panic on unlucky uniform or large data
    (finding 1).  `to_i256` extends the low half without its sign, so the strategy
    `SimpleSigned` (not used by any benchmark) makes no negative operand.
    devel/src/lib.rs: `overflowing_mul_signed_i256` takes and returns `u256` (C89, C90).
29. int/limb.rs documents at most 4 limb products for `wrapping_mul_ilimb` (520) and
    the overflowing products with unsigned scalars (1256, 1367) and 5 for those with
    signed ones (1269, 1380); the source asks for 10 (256 bits, 64-bit limbs) for every
    operand, because these forms pad the scalar to full width.  lib.rs 52 calls the full
    product faster "in most cases"; its number of limb products never varies (C95).
30. print-benches.rs chooses the unit before rounding: a time from 999.9995 up to 1000 of a
    unit is printed as `1000.000` of it (C96).  Negative times are always in nanoseconds.
31. print-benches.rs 71-74: the error for an unreadable record always reads `base not
    found`, whichever file is the cause.  The column width is counted in bytes but used in
    characters (148), so a title outside ASCII moves the column to the right (C97).
32. The listings documenting the additions of a signed limb (math/add.rs 597-611, 636-655)
    and the wrapping subtraction of one (math/sub.rs 596-612) use zero for the middle limbs of
    the small number: they are right exactly when it is not negative.  The functions and the
    other 18 listings are right (C98).
33. int/overflowing.rs 187, 201 say that too large a shift amount is masked with N-1, and
    shared/bitops.rs 197, 221 that its high-order bits are removed; the code takes the
    remainder by the width.  This is the same exactly for power-of-two widths, so not for
    384 bits (C99).
34. The sketches of the right shift in the documentation (math/shift.rs 165-208) are the
    benchmarked ones of finding 26: right only with the more significant half first, while
    those of the left shift (40-83) have it last (C71).
35. `{:e}` and `{:E}` keep trailing zeros: 210 prints as `2.10e2` (uint/traits.rs 87-107),
    where the primitive integers print `2.1e2` (C100, C101).
36. Printing with flags: the zero flag is ignored, so `{:08x}` of 42 is padded with spaces
    (uint/traits.rs 18-25 and the other radix forms), as is the alignment; `{:+}` prints no
    sign for unsigned numbers nor in the radix forms (C101; see also finding 15).
37. The commented-out `checked_ilog10` (uint/checked.rs 91-111) would be right at 256 bits
    only: it stops when the upper half is zero and then cuts the value to 128 bits (C103).
38. The build script reports its own overflow setting, not the crate's.  When the two differ,
    division by an unsigned scalar and `to_str_radix` follow the crate's, all else the script's (C104).
39. `checked_ilog` divides `self` by `base` again before every pass of its loop, though neither
    changes (uint/checked.rs 79): 129 equal divisions for base two at 256 bits.  Dividing once gives
    the same results (C107).
40. `div_rem` of MIN by -1 panics with overflow checks, though only a zero divisor is documented
    (shared/ops.rs 33-45).  The unsigned `next_multiple_of` panics with checks on every inexact
    division; the signed one never notices it (C108).
41. `to_str_radix` is documented to panic when the digits do not fit the buffer, but panics for
    every buffer below BITS bytes, one more if signed (write.rs 25-39) (C108).
42. `lt_const`, `le_const`, `gt_const`, `ge_const` and `cmp_const` are documented as non-short
    circuiting (shared/ord.rs 88-130) but leave their loops at the first word that differs, at every
    width; `eq_const` (74) does so from 4096 bits on (C110).

## Corrected routines

MFix.v and its continuations are not models of the code.  They hold, for a finding, the smallest change
that removes it, as a changed copy of the model definition.  The callers are copied with the
changed routine as a parameter, and a `_same_code` theorem shows that
they are the model's own definitions when the parameter is the published
routine.  The theorems about them (C84 on) say that the finding is local: with
that change every caller has the property that fails today.

## Mutation tests

seeded/LOG.jsonl records deliberately wrong programs: one edit of one model
definition each, made in a scratch copy.  There are two kinds.

* Generated (names of one letter `a`, `m`, `n` and a number): a concrete input whose
  result changes was computed, the development was rebuilt with every lemma that
  no longer checks left open, and the property theorems that (transitively)
  needed such a lemma were read off `Print Assumptions`.
* Written by hand (the other names): no input was computed.  Every lemma that no longer
  checks was left open in the files that depend on the edited one.  `theorems_failed`
  holds the theorems that failed themselves and those named by hand as needing a failed
  lemma.  The second sort was checked afterwards against the uses of each lemma in the
  sources: seven entries each named one theorem too many, and were corrected.

## Plan per property

| id | model | proof idea |
|----|-------|-----------|
| C01 | add/sub/mul loops, uint wrapping | loop invariant on partial values |
| C02 | overflowing loops + checked/strict/saturating wrappers | carry = quotient |
| C03 | mul overflowing_full, checked_mul fast path | nested invariant; bit lengths |
| C04 | signed wrapping | same limbs as unsigned, congruence |
| C05 | signed overflowing_full | top limb analysis |
| C06 | signed overflowing mul | refuted + partial (all but MIN-top-limb results) |
| C07, C08 | math/div.rs | refuted + Knuth D invariant |
| C09 | div limb / div_rem_word | 2-by-1 division correctness |
| C10 | checked wrappers, div by 0 | case analysis, refutation for 0/0 |
| C11-C14 | int/uint division wrappers | from division lemma |
| C15-C17 | math/shift.rs, rotate.rs | bit-level invariants |
| C18-C19 | shared/bitops.rs | `Z.testbit` |
| C20, C22, C23 | shared/endian.rs with endianness flag | list reversal, digits |
| C21 | shared/ord.rs | lexicographic order |
| C24-C26 | shared/casts.rs, TryFrom | sign extension |
| C27-C28 | parse.rs | loop invariant, unchecked bound |
| C29-C32 | write.rs, Display | digit generation |
| C33 | pow | square and multiply invariant |
| C34 | ilog | loop invariant |
| C35-C40 | ops | case analysis |
| C41-C43 | scalar operations | as C01/C02 |
| C44-C45 | operators | both values of `chk` |
| C46-C48 | constants, limb size independence, laws | from the above |
| C49-C50 | scalar division | as C08/C09 on the scalar routines |
| C51 | FromStr | window analysis plus the std parser |
| C52-C53 | formatter flags, exponent form | layout of the output |
| C54 | index helpers on both byte orders | list reversal |
| C55-C57 | num-traits | from casts and comparison |
| C58 | all variants of each operation | both sides from the exact equations |
| C59 | same build with checks on and off | exact equations do not mention the setting |
| C60 | int/ops.rs rounding division | from C10, C12, C13 |
| C61 | shared/limb.rs, int/limb.rs | projections of C49/C50 |
| C62 | operator impls, Default, Debug, From | from the value forms; induction on the run |
| C63 | num-traits forwards, error.rs | from the inherent methods |
| C64 | scalars, text, layout, division in two builds | both sides from the exact equations; uniqueness of numerals and digits |
| C65 | same build with debug assertions on and off | exact equations do not mention the setting |
| C66 | client loops over words (carrying_add, borrowing_sub, carrying_mul) | induction on the words |
| C67 | client expressions | induction on the expression |
| C68 | devel/tests/ops.rs, devel/tests/util.rs | each test unfolded to its exact equation, compared with the oracle |
| C69 | src/math/*.rs array functions | the length-generic lemmas behind C01-C40, stated directly on arrays |
| C70 | devel/tests/native_math.rs, devel/tests/div_math.rs | C69 at two limbs |
| C71 | devel/benches/{shift,mul,bit}_algos.rs, div_by_mul.rs | cases on the amount; digit products in base 2^h; high product as the exact one with one term exchanged |
| C72 | etc/libdivide.py, etc/magic.py | a multiplier m with 2^k <= m d <= 2^k + 2^(k-b) divides all b-bit numbers; loop invariants for the reductions |
| C73 | math/bigint.rs, shared/mod.rs, shared/num_traits_impls.rs | two overflow steps compared with one; injectivity of the byte image |
| C74 | math/div.rs | bound the estimate error by the low limbs; count per quotient digit |
| C75 | math/div.rs asm block | register semantics of `div`; range invariants of the loops |
| C76 | division forms of uint/int | case split on the division outcome (panic, exact, stray carry) for every variant |
| C77 | signed mul/pow forms, mul_add, expressions | the window of C06 carried through every user; sign test for callers |
| C78 | uint/limb.rs, int/limb.rs, shared/limb.rs divisions | the stray carries below 2^128 are larger than the divisor and never wrap; case split on the outcome |
| C79 | parse.rs, uint/checked.rs, int/checked.rs | where the missed overflow can occur in a numeral is decided by comparing prefixes; case split for the logarithm, loop invariant for base one |
| C80 | shared/bitops.rs, shared/endian.rs, uint/bitops.rs, int/bitops.rs | both sides of a law are described bit by bit and compared; counting by a permutation of the positions |
| C81 | shared/ord.rs, shared/endian.rs, uint/overflowing.rs, int/overflowing.rs | each law reduces to one inequality on the values; digits of equal length compare lexicographically |
| C82 | PropsText.v | both parse loops equal the scan of TextSpec.v, on which digits with equal value and leading zeros are indistinguishable; numerals by digit count and induction on the common prefix | 
| C83 | PropsFirst.v | a digit is overestimated only if the window reaches twice the two leading limbs or the top limb times a limb power; both bounds are attained at the lowest step | 
| C84 | MFix.v, PFixDiv.v, PFixApi.v, PFixScalar.v, PropsFix.v | the invariant of Knuth's algorithm D holds again after the corrected add-back; callers over any routine that divides exactly |
| C85 | MFix2.v, PFixPow.v, PFixScalar2.v, PropsFix2.v | the loop invariant of the power (accumulator and base modulo 2^BITS, flag iff a partial product left the range) with the exact flag; digit loops as the scan of C27 with the bound of the sign |
| C86 | MFix3.v, PropsFix3.v | the lemmas of C16, C26, C29, C35, C36, C39, C45, C52, C53 and C60 with the changed place; the length of a numeral of at most 2^(BITS-1) leaves room for the sign; the round trip through C85_parse |
| C87 | Lang.v, PLang.v, PLang2.v, PropsLang.v | simulation by induction on the fuel and the expression, from one lemma per operation; off the list the published operation equals the corrected one or follows from C76, on it the earlier characterisations give the wrong answer |
| C88 | MOrd.v, PropsLang.v | the order lemmas of C21, and a case distinction |
| C89 | MBench.v, PropsBench.v | a draw is the least value plus a remainder, and any value of the range is such a remainder; joining by the word conversions of C23 |
| C90 | MBench.v, PropsBench.v | each call by the lemma of its operation; a loop of calls that never run out of fuel succeeds or panics; the exact list of failing divisions of C76 |
| C91 | math/div.rs, the division forms | C74_step at every step; numerators by remainder modulo the shifted divisor; an explicit family attains the order |
| C92 | math/mul.rs, signed overflowing_mul | C06 turns a miss into a product in a short interval; multiples of one factor, then factors by size |
| C93 | math/div.rs, the scalar divisions | the counting of C91 with the decision of C78 |
| C94 | devel/tests/util.rs and ops.rs, with the operation under test as a parameter | each comparison decides a relation on values; the pairs of halves reach every operand |
| C95 | MCost.v, PCost.v, PropsCost.v | counted copies of the product and division routines, equal to the model once the counts are left out; exact counts by composition over the loops, bounds for the long division |
| C96 | MReport.v, PReport.v, PropsReport.v | the division of SpecFloat is the quotient rounded to 53 bits; both roundings are monotone and exact at the ends of each unit |
| C97 | MReport.v, PropsReport.v | induction over the listings; the reverse path for the search; byte length at least character length for the columns |
| C98 | MListing.v, PListing.v, PropsListing.v, PropsListing2.v | symbolic execution of each listing on a small x86_64 machine; carries and overflow flags of four limbs against the proved results of the functions |
| C99 | PropsMask.v | the next power of two above the width separates mask and remainder; the results of C15 and C16 |
| C100 | LangText.v, PLangText.v, PropsLangText.v | induction on the watched run length over C87 with two more operations; parsing from C79, C51 and C85, printing from C29-C31, C53 and C86; uniqueness of canonical numerals turns the relational statements into equations with computed texts |
| C101 | FlagSpec.v, MFix4.v, PFlags.v, PropsFlags.v | the texts of C30, C31 and C53 as equations; lengths, first and last bytes and the place of the point tell padded texts apart; a numeral is its significant digits and zeros |
| C102 | MCost2.v, PCost2.v, PropsCost2.v | counted copies of the reading and writing loops, equal to the model once the counts are left out; the division by a radix commutes with dropping two limbs, which gives the closed form |
| C103 | MDraft.v, PropsDraft.v | the divisor 10^16 never needs a correction (C83); the loop drops digits 16 at a time, and dropping digits commutes with the logarithm |
| C104 | MBuild.v, PropsBuild2.v | the definitions again with the flag apart from the crate's setting; every inner step is the same in both builds by C59's lemmas |
| C105 | MUnsafe.v, PropsUnsafe.v | undefined behaviour as an outcome of its own; the checked forms decide it |
| C106 | PropsAccess.v | limbs as digits of the number; PBits, PMisc |
| C107 | MCost3.v, PropsCost3.v | erasing the counts; the runs of the two loops by induction |
| C108 | PropsPanic.v | the outcome of every division method in two shapes; outcomes of C76, C78, C79, C29 |
| C109 | PropsTotal.v | catalogues of named calls; each entry from the value lemma of its method |
| C110 | MTrace.v, PTrace.v, PTrace2.v, PTrace3.v, PropsTrace.v | a writer monad; erasing the trace gives the model; two runs related step by step; scans by induction on the place they stop |
| C111 | MText.v, MRun.v, SrcText.v, PText.v, PTextAdd.v, PTextSub.v, PTextMul*.v, PropsSrcAdd.v, PropsSrcSub.v, PropsSrcMul.v, PropsSrc.v | the text is read by computation; each loop of the text is run step by step against the loop of the model, by induction on the rounds |
| C112 | SrcText.v, MText.v, MRun.v, PTextShift.v, PTextShiftR.v, PTextRot.v, PropsSrcShift.v | as C111; the downward loop of the right shift runs against the model's upward count |
