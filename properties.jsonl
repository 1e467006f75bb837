{"id": "C01", "title": "Unsigned wrapping arithmetic is arithmetic mod 2^BITS", "statement": "For unsigned types, wrapping_add, wrapping_sub, wrapping_mul and wrapping_neg never panic and return the mathematical sum, difference, product or negation reduced modulo 2^BITS.", "quantifier": "for every limb width (32 or 64 bits), every type width that is a multiple of 128 bits and at least 256 bits, for all pairs of values", "why_tests_cant": "2^512 input pairs at the smallest width; carry chains across limbs only show for rare limb patterns such as all-ones.", "anchors": ["src/math/add.rs: wrapping_full", "src/math/sub.rs: wrapping_full", "src/math/mul.rs: wrapping_full", "src/uint/wrapping.rs: wrapping_add, wrapping_sub, wrapping_mul, wrapping_neg"]}
{"id": "C02", "title": "Unsigned overflowing and checked add/sub detect overflow exactly", "statement": "overflowing_add and overflowing_sub return the wrapped result together with a flag that is true exactly when the true result is outside [0, 2^BITS); checked_add/checked_sub return Some(exact result) exactly when it fits; strict_add/strict_sub panic exactly when it does not fit; saturating_add/saturating_sub clamp to MAX/MIN.", "quantifier": "for every limb width (32 or 64 bits), every type width that is a multiple of 128 bits and at least 256 bits, for all pairs of values", "why_tests_cant": "The boundary between overflow and no overflow is a surface in a 512-bit space; sampling cannot show that the flag is an equivalence.", "anchors": ["src/math/add.rs: overflowing_full", "src/math/sub.rs: overflowing_full", "src/uint/overflowing.rs", "src/shared/checked.rs", "src/shared/strict.rs", "src/uint/saturating.rs"]}
{"id": "C03", "title": "Unsigned overflowing multiplication detects overflow exactly", "statement": "overflowing_mul returns the product mod 2^BITS and a flag that is true exactly when the exact product is at least 2^BITS; checked_mul is Some(exact product) iff it fits (its bit-length fast path never changes the answer); strict_mul panics iff it does not fit; saturating_mul clamps to MAX.", "quantifier": "for every limb width (32 or 64 bits), every type width that is a multiple of 128 bits and at least 256 bits, for all pairs of values", "why_tests_cant": "Overflow of a schoolbook product can come from any of O(LIMBS^2) skipped partial products or a trailing carry; tests reach few of these and never prove the early exit sound.", "anchors": ["src/math/mul.rs: overflowing_full", "src/uint/overflowing.rs: overflowing_mul", "src/shared/checked.rs: checked_mul", "src/uint/saturating.rs: saturating_mul"]}
{"id": "C04", "title": "Signed wrapping arithmetic is two's complement arithmetic", "statement": "For signed types, wrapping_add, wrapping_sub, wrapping_mul, wrapping_neg and wrapping_abs never panic and return the unique value of the type congruent to the exact result modulo 2^BITS.", "quantifier": "for every limb width (32 or 64 bits), every type width that is a multiple of 128 bits and at least 256 bits, for all pairs of values", "why_tests_cant": "Sign handling, MIN and carries interact; the input space cannot be enumerated.", "anchors": ["src/math/add.rs: signed wrapping_full", "src/math/sub.rs: signed wrapping_full", "src/math/mul.rs: signed wrapping_full", "src/int/wrapping.rs"]}
{"id": "C05", "title": "Signed overflowing and checked add/sub detect overflow exactly", "statement": "Signed overflowing_add/overflowing_sub return the two's complement result and a flag that is true exactly when the exact result lies outside [-2^(BITS-1), 2^(BITS-1)); checked_add/checked_sub are Some(exact) iff it fits; strict variants panic iff it does not; saturating variants clamp to MIN or MAX on the right side.", "quantifier": "for every limb width (32 or 64 bits), every type width that is a multiple of 128 bits and at least 256 bits, for all pairs of values", "why_tests_cant": "The source itself notes a very specific edge case where two internal overflows cancel; only a proof shows no such case is missed.", "anchors": ["src/math/add.rs: signed overflowing_full", "src/math/sub.rs: signed overflowing_full", "src/int/overflowing.rs", "src/int/saturating.rs", "src/shared/checked.rs", "src/shared/strict.rs"]}
{"id": "C06", "title": "Signed overflowing multiplication detects overflow exactly", "statement": "Signed overflowing_mul returns the two's complement product and a flag that is true exactly when the exact product lies outside the range of the type; checked_mul/strict_mul/saturating_mul follow it.", "quantifier": "for every limb width (32 or 64 bits), every type width that is a multiple of 128 bits and at least 256 bits, for all pairs of values", "why_tests_cant": "Products close to the magnitude of MIN are a vanishing fraction of inputs; a wrong flag there is invisible to random tests.", "anchors": ["src/math/mul.rs: signed overflowing_full", "src/int/overflowing.rs: overflowing_mul", "src/shared/checked.rs: checked_mul", "src/int/saturating.rs: saturating_mul"]}
{"id": "C07", "title": "Unsigned division and remainder are exact", "statement": "For a non-zero divisor, wrapping_div_rem / wrapping_div / wrapping_rem on unsigned types return q and r with n = q*d + r and 0 <= r < d, without panicking.", "quantifier": "for every limb width (32 or 64 bits), every type width that is a multiple of 128 bits and at least 256 bits, for all numerators and all non-zero divisors", "why_tests_cant": "The correction (add-back) step of long division runs with probability about 2^-63 on random inputs, so ordinary and fuzz tests practically never execute it.", "anchors": ["src/math/div.rs: full, div_rem_knuth, div_rem_word", "src/uint/wrapping.rs: wrapping_div_rem"]}
{"id": "C08", "title": "Unsigned long division: what is guaranteed", "statement": "For a non-zero divisor, whenever unsigned wrapping_div_rem returns at all, the quotient is exactly floor(n/d); and it returns with the exact remainder whenever the divisor fits in one limb, or the numerator is smaller than or equal to the divisor, or no quotient-digit estimate has to be corrected.", "quantifier": "for every limb width (32 or 64 bits), every type width that is a multiple of 128 bits and at least 256 bits, for all numerators and all non-zero divisors", "why_tests_cant": "The statement separates the inputs on which the result is right from the rare ones on which it is not; that boundary cannot be sampled.", "anchors": ["src/math/div.rs: full, full_gt, div_rem_knuth, div_rem_word, limb"]}
{"id": "C09", "title": "Division by a single limb is exact", "statement": "wrapping_div_rem_ulimb (and div/rem by a limb) of an unsigned value by a non-zero limb returns the exact quotient and remainder and never panics.", "quantifier": "for every limb width (32 or 64 bits), every type width that is a multiple of 128 bits and at least 256 bits, for all numerators and all non-zero limb divisors", "why_tests_cant": "The 2-by-1 word division uses a half-word estimate with two correction steps, whose rare paths need specific digit patterns.", "anchors": ["src/math/div.rs: limb, div_rem_word", "src/uint/limb.rs: wrapping_div_rem_ulimb", "src/shared/limb.rs"]}
{"id": "C10", "title": "Division by zero is reported, never silently answered", "statement": "checked_div, checked_rem, checked_div_rem and their Euclidean forms return None exactly when the divisor is zero (unsigned) or when the divisor is zero or the operation is MIN / -1 (signed); the panicking forms and the documented-to-panic wrapping forms panic for every zero divisor.", "quantifier": "for every limb width (32 or 64 bits), every type width that is a multiple of 128 bits and at least 256 bits, for all numerators", "why_tests_cant": "Zero divisors combined with every numerator: a shortcut taken before the zero check answers for some numerators only.", "anchors": ["src/math/div.rs: full, wide, cmp", "src/shared/checked.rs", "src/shared/ops.rs: div_rem", "src/uint/wrapping.rs", "src/uint/strict.rs"]}
{"id": "C11", "title": "Signed division truncates toward zero", "statement": "For signed types and a non-zero divisor with (n, d) not (MIN, -1), div and rem give the quotient truncated toward zero and a remainder with the sign of the dividend; for (MIN, -1) wrapping_div gives MIN, wrapping_rem gives 0, overflowing_div/overflowing_rem set the flag, checked_div is None, saturating_div gives MAX.", "quantifier": "for every limb width (32 or 64 bits), every type width that is a multiple of 128 bits and at least 256 bits, for all numerators and non-zero divisors on which the unsigned magnitude division is exact", "why_tests_cant": "Sign combinations times magnitude patterns; MIN has no positive counterpart.", "anchors": ["src/int/wrapping.rs: wrapping_div_rem, wrapping_div, wrapping_rem", "src/int/overflowing.rs", "src/int/saturating.rs: saturating_div", "src/int/ops.rs: is_div_overflow"]}
{"id": "C12", "title": "Euclidean division satisfies its contract", "statement": "wrapping_div_euclid and wrapping_rem_euclid return the unique q and r with n = q*d + r and 0 <= r < |d| (wrapped for MIN / -1).", "quantifier": "for every limb width (32 or 64 bits), every type width that is a multiple of 128 bits and at least 256 bits, for all numerators and non-zero divisors on which the magnitude division is exact", "why_tests_cant": "Correction by +-1 depends on sign and remainder; MIN is a corner in both operands.", "anchors": ["src/int/wrapping.rs: wrapping_div_euclid, wrapping_rem_euclid", "src/uint/wrapping.rs", "src/int/ops.rs: div_euclid, rem_euclid"]}
{"id": "C13", "title": "div_floor and div_ceil round in the stated direction", "statement": "div_floor returns the quotient rounded toward negative infinity and div_ceil the quotient rounded toward positive infinity, for signed and unsigned types.", "quantifier": "for every limb width (32 or 64 bits), every type width that is a multiple of 128 bits and at least 256 bits, for all numerators and non-zero divisors on which the magnitude division is exact and the result fits", "why_tests_cant": "The rounding correction is computed from sign bits; every sign/remainder class must be right for all magnitudes.", "anchors": ["src/uint/ops.rs: div_floor, div_ceil", "src/int/ops.rs: div_floor, div_ceil"]}
{"id": "C14", "title": "next_multiple_of and is_multiple_of", "statement": "checked_next_multiple_of returns the smallest multiple of rhs that is >= self (unsigned; for signed with negative rhs, the largest multiple <= self), None iff rhs is zero or it does not fit; is_multiple_of is true iff rhs divides self (with 0 dividing only 0).", "quantifier": "for every limb width (32 or 64 bits), every type width that is a multiple of 128 bits and at least 256 bits, for all pairs on which the division is exact", "why_tests_cant": "Values near MAX decide between Some and None.", "anchors": ["src/uint/checked.rs: checked_next_multiple_of", "src/uint/ops.rs: next_multiple_of, is_multiple_of", "src/int/checked.rs: checked_next_multiple_of", "src/int/ops.rs: next_multiple_of"]}
{"id": "C15", "title": "Left shift multiplies by a power of two modulo 2^BITS", "statement": "wrapping_shl(n) never panics and returns self * 2^(n mod BITS) mod 2^BITS for both signednesses; checked_shl/overflowing_shl/strict_shl/unbounded_shl treat n >= BITS as None / flag with masked shift / panic / zero.", "quantifier": "for every limb width (32 or 64 bits), every type width that is a multiple of 128 bits and at least 256 bits, for all values and all u32 shift amounts", "why_tests_cant": "BITS amounts times 2^BITS values; shifts that are a multiple of the word size and shifts by zero are separate paths.", "anchors": ["src/math/shift.rs: left", "src/uint/bitops.rs: wrapping_shl", "src/int/bitops.rs: wrapping_shl", "src/shared/checked.rs: checked_shl", "src/shared/unbounded.rs"]}
{"id": "C16", "title": "Right shift is floor division by a power of two", "statement": "wrapping_shr(n) never panics and returns floor(self / 2^(n mod BITS)): logical for unsigned types, arithmetic (sign-extending) for signed types; checked_shr/overflowing_shr/strict_shr/unbounded_shr treat n >= BITS accordingly.", "quantifier": "for every limb width (32 or 64 bits), every type width that is a multiple of 128 bits and at least 256 bits, for all values and all u32 shift amounts", "why_tests_cant": "Sign extension must fill every vacated limb for every amount, including multiples of the word size.", "anchors": ["src/math/shift.rs: right", "src/uint/bitops.rs: wrapping_shr", "src/int/bitops.rs: wrapping_shr", "src/shared/unbounded.rs"]}
{"id": "C17", "title": "Rotations permute bits cyclically", "statement": "rotate_left(n) moves bit i to bit (i+n) mod BITS for every n (also n >= BITS), rotate_right(n) is its inverse, and neither panics.", "quantifier": "for every limb width (32 or 64 bits), every type width that is a multiple of 128 bits and at least 256 bits, for all values and all u32 amounts", "why_tests_cant": "Every bit index and amount combination at every width; amounts that are multiples of the word size take a different path.", "anchors": ["src/math/rotate.rs: left, right", "src/shared/bitops.rs: rotate_left, rotate_right"]}
{"id": "C18", "title": "Bit counting functions", "statement": "count_ones, count_zeros, leading_zeros, trailing_zeros, leading_ones and trailing_ones return the number of one bits, zero bits, and the lengths of the corresponding maximal runs at the top or bottom of the BITS-bit representation, including all-zero and all-one values.", "quantifier": "for every limb width (32 or 64 bits), every type width that is a multiple of 128 bits and at least 256 bits, for all values", "why_tests_cant": "Run lengths that end exactly at limb boundaries are the failure cases; 2^BITS inputs.", "anchors": ["src/shared/bitops.rs: count_ones, count_zeros, leading_zeros, trailing_zeros, leading_ones, trailing_ones"]}
{"id": "C19", "title": "Bitwise operators act on every bit", "statement": "&, |, ^ and ! act independently on each of the BITS bits; for signed values ! is -x-1.", "quantifier": "for every limb width (32 or 64 bits), every type width that is a multiple of 128 bits and at least 256 bits, for all values and all bit positions", "why_tests_cant": "A limb left unprocessed would only show for values where that limb matters; the claim is for every bit of every value.", "anchors": ["src/shared/bitops.rs: bitand_const, bitor_const, bitxor_const, not_const"]}
{"id": "C20", "title": "Byte and bit reversal", "statement": "swap_bytes reverses the byte order and reverse_bits the bit order of the full BITS-bit representation; both are involutions; to_be/to_le/from_be/from_le are swap_bytes or the identity depending on target endianness.", "quantifier": "for every limb width (32 or 64 bits), every type width that is a multiple of 128 bits and at least 256 bits, on little- and big-endian targets, for all values", "why_tests_cant": "CI runs only on little-endian hosts; the big-endian layout path is not executed.", "anchors": ["src/shared/endian.rs: swap_bytes, reverse_bits, from_be, from_le, to_be, to_le"]}
{"id": "C21", "title": "Comparison is the numeric order", "statement": "cmp, <, <=, >, >= and == agree with the numeric order of the represented integers (unsigned or signed), hence form a total order.", "quantifier": "for every limb width (32 or 64 bits), every type width that is a multiple of 128 bits and at least 256 bits, for all pairs of values", "why_tests_cant": "Comparison walks from the top word down with a different operator on the last word; wrong only for values equal in all but specific words.", "anchors": ["src/shared/ord.rs: lt_const, le_const, gt_const, ge_const, cmp_const, eq_const"]}
{"id": "C22", "title": "Byte array conversions", "statement": "to_le_bytes/to_be_bytes/to_ne_bytes give the base-256 digits of the two's complement representation in the stated order, from_*_bytes inverts them, on little- and big-endian targets.", "quantifier": "for every limb width (32 or 64 bits), every type width that is a multiple of 128 bits and at least 256 bits, on little- and big-endian targets, for all values and all byte arrays", "why_tests_cant": "The big-endian code path is never executed on the CI hosts; the arrays are transmuted.", "anchors": ["src/shared/endian.rs: to_be_bytes, to_le_bytes, to_ne_bytes, from_be_bytes, from_le_bytes, from_ne_bytes"]}
{"id": "C23", "title": "Word array conversions", "statement": "to/from_{le,be,ne}_{limbs,wide,u32,u64} give/accept the digits of the value in base 2^w in the stated order and invert each other, on little- and big-endian targets.", "quantifier": "for every limb width (32 or 64 bits), every type width that is a multiple of 128 bits and at least 256 bits, on little- and big-endian targets, for all values and all arrays", "why_tests_cant": "Transmutes between word sizes are endianness dependent; only one endianness is ever run.", "anchors": ["src/shared/endian.rs: to_*_limbs, from_*_limbs, to_*_wide, from_*_wide, to_*_u32, from_*_u32, to_*_u64, from_*_u64"]}
{"id": "C24", "title": "Conversion from primitive integers preserves the value", "statement": "from_u8..from_u128 and from_i8..from_i128 (and from_ulimb/from_ilimb/from_uwide/from_iwide) yield the same integer, sign-extended for negative inputs; into an unsigned type a negative value is reduced modulo 2^BITS.", "quantifier": "for every limb width (32 or 64 bits), every type width that is a multiple of 128 bits and at least 256 bits, for all primitive values", "why_tests_cant": "2^128 primitive inputs; sign extension must fill all upper limbs.", "anchors": ["src/shared/casts.rs: from_u8 .. from_iwide"]}
{"id": "C25", "title": "Conversion to primitive integers truncates", "statement": "as_u8..as_u128 and as_i8..as_i128 return the value reduced to the target's width in two's complement; as_signed/as_unsigned/as_{u,i}N between the big types reinterpret bits.", "quantifier": "for every limb width (32 or 64 bits), every type width that is a multiple of 128 bits and at least 256 bits, for all values", "why_tests_cant": "Truncation is claimed for every value, not for small ones.", "anchors": ["src/shared/casts.rs: as_u8 .. as_signed"]}
{"id": "C26", "title": "Fallible conversions accept exactly the representable values", "statement": "TryFrom between the signed and unsigned type of one width, and from signed primitives to the unsigned type, succeeds exactly when the value is representable, with the same value.", "quantifier": "for every limb width (32 or 64 bits), every type width that is a multiple of 128 bits and at least 256 bits, for all values", "why_tests_cant": "Off-by-one at MAX or MIN is one value out of 2^BITS.", "anchors": ["src/uint/traits.rs: TryFrom", "src/int/traits.rs: TryFrom", "src/shared/traits.rs: TryFrom"]}
{"id": "C27", "title": "from_str_radix accepts exactly the valid numerals", "statement": "from_str_radix(s, radix) for 2 <= radix <= 36 returns Ok(v) exactly when s is an optional sign ('+', and '-' for signed types) followed by at least one digit valid in the radix (case-insensitive) whose value v fits the type.", "quantifier": "for every limb width (32 or 64 bits), every type width that is a multiple of 128 bits and at least 256 bits, for all byte strings and all radixes 2..36", "why_tests_cant": "Strings are unbounded; a fast path skips overflow checks by a digit-count bound which must be sound for every radix and width.", "anchors": ["src/parse.rs: from_str_radix, overflow_digits, unchecked_loop, checked_loop, char_to_digit"]}
{"id": "C28", "title": "from_str_radix error kinds", "statement": "from_str_radix reports Empty for the empty string, InvalidDigit when the first offending character is not a digit, PosOverflow/NegOverflow when a prefix of the digits already exceeds the range; it panics exactly for radixes outside 2..36.", "quantifier": "for every limb width (32 or 64 bits), every type width that is a multiple of 128 bits and at least 256 bits, for all byte strings and radixes", "why_tests_cant": "Unbounded strings; precedence between an invalid digit and an overflow depends on position.", "anchors": ["src/parse.rs: from_str_radix", "src/error.rs"]}
{"id": "C29", "title": "to_str_radix prints the value", "statement": "to_str_radix writes the canonical numeral of the value in the radix (2..36), with '-' for negative values, no leading zeros.", "quantifier": "for every limb width (32 or 64 bits), every type width that is a multiple of 128 bits and at least 256 bits, for all values and all radixes", "why_tests_cant": "Each radix/width combination has its own chunking behaviour; negative values are a separate path.", "anchors": ["src/write.rs: to_str_radix, digit_to_char"]}
{"id": "C30", "title": "Decimal Display is canonical", "statement": "Display prints the canonical decimal numeral of the value ('-' for negative, no leading zeros).", "quantifier": "for every limb width (32 or 64 bits), every type width that is a multiple of 128 bits and at least 256 bits, for all values", "why_tests_cant": "Digits are produced by repeated division of a multi-limb value; all 2^BITS values are claimed.", "anchors": ["src/uint/traits.rs: Display", "src/int/traits.rs: Display", "src/write.rs: to_str_radix"]}
{"id": "C31", "title": "Binary, octal and hexadecimal formatting", "statement": "Binary, Octal, LowerHex and UpperHex print the canonical base-2/8/16 numeral of the unsigned (two's complement) representation.", "quantifier": "for every limb width (32 or 64 bits), every type width that is a multiple of 128 bits and at least 256 bits, for all values", "why_tests_cant": "All values, including those whose digit groups straddle limbs (octal).", "anchors": ["src/uint/traits.rs: Binary, Octal, LowerHex, UpperHex", "src/int/traits.rs"]}
{"id": "C32", "title": "Parsing inverts formatting", "statement": "Parsing the Display output of any value gives the value back; the same for to_str_radix and from_str_radix with the same radix (unsigned types).", "quantifier": "for every limb width (32 or 64 bits), every type width that is a multiple of 128 bits and at least 256 bits, for all values and radixes", "why_tests_cant": "Round trip for all 2^BITS values.", "anchors": ["src/parse.rs: from_str_radix", "src/write.rs: to_str_radix", "src/uint/traits.rs: Display, FromStr", "src/int/traits.rs: Display, FromStr"]}
{"id": "C33", "title": "Exponentiation", "statement": "wrapping_pow(e) returns self^e mod 2^BITS (two's complement for signed); for unsigned types overflowing_pow's flag, checked_pow, strict_pow and saturating_pow reflect exactly whether self^e fits.", "quantifier": "for every limb width (32 or 64 bits), every type width that is a multiple of 128 bits and at least 256 bits, for all bases and all u32 exponents", "why_tests_cant": "2^32 exponents times 2^BITS bases; the overflow flag accumulates through squarings that may not contribute to the result.", "anchors": ["src/shared/wrapping.rs: wrapping_pow", "src/shared/overflowing.rs: overflowing_pow", "src/shared/checked.rs: checked_pow", "src/uint/saturating.rs: saturating_pow"]}
{"id": "C34", "title": "Integer logarithms", "statement": "checked_ilog2 returns floor(log2 self) for positive self and None otherwise; checked_ilog(base) returns floor(log_base self) for self >= 1, base >= 2 and None otherwise.", "quantifier": "for every limb width (32 or 64 bits), every type width that is a multiple of 128 bits and at least 256 bits, for all values and bases", "why_tests_cant": "Powers of the base and their predecessors for every base; termination for degenerate bases.", "anchors": ["src/shared/checked.rs: checked_ilog2", "src/uint/checked.rs: checked_ilog, checked_ilog10", "src/int/checked.rs: checked_ilog"]}
{"id": "C35", "title": "Absolute value, sign and distance", "statement": "unsigned_abs is the exact magnitude for every value including MIN; abs_diff is the exact |a-b|; wrapping_abs/overflowing_abs/checked_abs/saturating_abs/strict_abs treat MIN as wrapped/flag/None/MAX/panic; signum, is_positive and is_negative reflect the sign.", "quantifier": "for every limb width (32 or 64 bits), every type width that is a multiple of 128 bits and at least 256 bits, for all values", "why_tests_cant": "MIN is one value out of 2^BITS; differences of signed values need one more bit than the type.", "anchors": ["src/int/ops.rs: unsigned_abs, abs, abs_diff, signum, is_positive, is_negative", "src/uint/ops.rs: abs_diff", "src/int/overflowing.rs: overflowing_abs", "src/int/checked.rs: checked_abs", "src/int/saturating.rs: saturating_abs"]}
{"id": "C36", "title": "Midpoint without overflow", "statement": "midpoint(a, b) is computed as if in unbounded precision: floor((a+b)/2) for unsigned types and, as documented, rounded towards negative infinity for signed types.", "quantifier": "for every limb width (32 or 64 bits), every type width that is a multiple of 128 bits and at least 256 bits, for all pairs of values", "why_tests_cant": "The rounding of every parity/sign combination, with sums that overflow the type.", "anchors": ["src/uint/ops.rs: midpoint", "src/int/ops.rs: midpoint"]}
{"id": "C37", "title": "Powers of two", "statement": "is_power_of_two is true iff the value is 2^k for some k; checked_next_power_of_two returns the smallest power of two >= self, None iff it does not fit; wrapping_next_power_of_two gives 0 in that case.", "quantifier": "for every limb width (32 or 64 bits), every type width that is a multiple of 128 bits and at least 256 bits, for all values", "why_tests_cant": "Boundary at each of BITS powers of two, at all widths.", "anchors": ["src/uint/ops.rs: is_power_of_two, next_power_of_two", "src/uint/checked.rs: checked_next_power_of_two", "src/uint/wrapping.rs: wrapping_next_power_of_two"]}
{"id": "C38", "title": "Widening products", "statement": "high_mul returns floor(a*b / 2^BITS), widening_mul returns the (low, high) halves of a*b, and carrying_mul the halves of a*b + c, all exact.", "quantifier": "for every limb width (32 or 64 bits), every type width that is a multiple of 128 bits and at least 256 bits, for all operands", "why_tests_cant": "The high half is assembled from four half-products whose internal carries almost never occur on random inputs.", "anchors": ["src/uint/extensions.rs: high_mul", "src/uint/ops.rs: widening_mul, carrying_mul", "src/math/mul.rs: widening"]}
{"id": "C39", "title": "Multi-word add with carry and subtract with borrow", "statement": "carrying_add(a, b, c) and borrowing_sub(a, b, c) return the wrapped result of a+b+c or a-b-c, and a carry/borrow (unsigned) or overflow (signed) flag that is exact.", "quantifier": "for every limb width (32 or 64 bits), every type width that is a multiple of 128 bits and at least 256 bits, for all operands and both carry values", "why_tests_cant": "Exactness of the flag matters at one value in 2^BITS, where two internal overflows meet.", "anchors": ["src/shared/bigint.rs: carrying_add, borrowing_sub"]}
{"id": "C40", "title": "Mixed-sign addition and subtraction", "statement": "Unsigned overflowing/checked/strict/saturating add_signed and sub_signed, and signed add_unsigned and sub_unsigned, return the exact mixed result when representable and report overflow exactly when it is not; checked_signed_diff returns a-b iff it fits the signed type.", "quantifier": "for every limb width (32 or 64 bits), every type width that is a multiple of 128 bits and at least 256 bits, for all operands", "why_tests_cant": "The overflow condition xors a carry with a sign; each combination must hold for all values.", "anchors": ["src/uint/overflowing.rs: overflowing_add_signed, overflowing_sub_signed", "src/int/overflowing.rs: overflowing_add_unsigned, overflowing_sub_unsigned", "src/uint/checked.rs: checked_add_signed, checked_signed_diff", "src/uint/saturating.rs", "src/int/saturating.rs"]}
{"id": "C41", "title": "Unsigned scalar operations equal full-width operations", "statement": "Adding, subtracting or multiplying an unsigned value by a limb, wide, u32, u64 or u128 scalar (wrapping, overflowing, checked forms) gives exactly the result and overflow flag of the full-width mathematical operation.", "quantifier": "for every limb width (32 or 64 bits), every type width that is a multiple of 128 bits and at least 256 bits, for all values and scalars", "why_tests_cant": "Each scalar width has its own carry loop; equality is over all inputs.", "anchors": ["src/math/add.rs: wrapping_limb, overflowing_limb, wrapping_mn, overflowing_mn, wrapping_wide", "src/math/sub.rs", "src/math/mul.rs", "src/uint/limb.rs", "src/shared/limb.rs"]}
{"id": "C42", "title": "Signed scalar operations equal full-width operations", "statement": "Adding, subtracting or multiplying a signed value by a signed or unsigned limb, wide or fixed-width scalar gives exactly the two's complement result and the overflow flag (for add and sub) of the mathematical operation. (128-bit scalars on 32-bit limbs are the subject of C43.)", "quantifier": "for every limb width (32 or 64 bits), every type width that is a multiple of 128 bits and at least 256 bits, for all values and scalars", "why_tests_cant": "Sign extension of the scalar and the top-limb overflow rule differ per scalar type.", "anchors": ["src/math/add.rs: signed ulimb, ilimb, uwide, iwide", "src/math/sub.rs", "src/math/mul.rs", "src/int/limb.rs"]}
{"id": "C43", "title": "128-bit scalar operations on 32-bit limbs", "statement": "With 32-bit limbs, the signed add/sub/mul with u128/i128 scalars return the mathematical result, as they do with 64-bit limbs.", "quantifier": "for 32-bit limbs, every type width that is a multiple of 128 bits and at least 256 bits, all values and all 128-bit scalars", "why_tests_cant": "The 32-bit configuration is not the default test target; the result must not depend on the limb size.", "anchors": ["src/util.rs: u128_to_limb_n, i128_to_limb_n", "src/int/limb.rs: wrapping_add_u128 and siblings", "src/math/add.rs: wrapping_mn, overflowing_mn"]}
{"id": "C44", "title": "Arithmetic operators honour the overflow-check setting", "statement": "With overflow checks on, +, -, * and unary - on the types panic exactly when the exact result does not fit and otherwise return it; with overflow checks off they never panic and wrap.", "quantifier": "for every limb width (32 or 64 bits), every type width that is a multiple of 128 bits and at least 256 bits, for both build settings and all operands (multiplication: unsigned)", "why_tests_cant": "Depends on a build-time setting; each build tests one half.", "anchors": ["src/shared/ops.rs: Add, Sub, Mul", "src/int/traits.rs: Neg"]}
{"id": "C45", "title": "Shift operators honour the overflow-check setting", "statement": "With overflow checks on, << and >> by any integer type panic exactly when the amount is negative or >= BITS, and otherwise shift; with checks off the amount is taken modulo BITS.", "quantifier": "for every limb width (32 or 64 bits), every type width that is a multiple of 128 bits and at least 256 bits, for both build settings, all shift-amount types and values", "why_tests_cant": "Amount types narrower than the bit width and the big types themselves are separate impls.", "anchors": ["src/shared/shift.rs", "src/shared/ops.rs: Shl, Shr"]}
{"id": "C46", "title": "Constants", "statement": "MIN, MAX, BITS, BYTES, LIMBS describe the type: every value lies between MIN and MAX, MAX+1 wraps to MIN, and MIN/MAX are 0 and 2^BITS-1 or -2^(BITS-1) and 2^(BITS-1)-1.", "quantifier": "for every limb width (32 or 64 bits), every type width that is a multiple of 128 bits and at least 256 bits, for all values", "why_tests_cant": "A claim about every value and every width.", "anchors": ["src/shared/constants.rs", "src/uint/constants.rs", "src/int/constants.rs"]}
{"id": "C47", "title": "Behaviour is independent of the limb size", "statement": "Every modelled operation returns the same integer on 32-bit-limb and 64-bit-limb builds when given the same integers.", "quantifier": "for every type width that is a multiple of 128 bits and at least 256 bits, for all operands (operations proved exact)", "why_tests_cant": "The two builds are never compared input by input; no single test binary contains both.", "anchors": ["src/types.rs", "src/util.rs: limb_function", "src/math/*.rs"]}
{"id": "C48", "title": "Algebraic laws", "statement": "Wrapping addition and multiplication are commutative and associative, multiplication distributes over addition, subtraction inverts addition, and negation is the additive inverse (equality of values).", "quantifier": "for every limb width (32 or 64 bits), every type width that is a multiple of 128 bits and at least 256 bits, for all triples of values", "why_tests_cant": "Laws over triples: 2^768 cases at the smallest width.", "anchors": ["src/uint/wrapping.rs", "src/int/wrapping.rs"]}
{"id": "C49", "title": "Signed division by a single limb", "statement": "Dividing a signed value by a non-zero unsigned limb gives the quotient rounded down and the non-negative remainder; by a non-zero signed limb it gives the truncated quotient and the remainder with the sign of the numerator, with MIN / -1 reported as the only overflow.", "quantifier": "for every limb width (32 or 64 bits), every type width that is a multiple of 128 bits and at least 256 bits, for all numerators and all non-zero divisors of at most one limb", "why_tests_cant": "the sign adjustments interact with the remainder being zero, with MIN and with the divisor's sign; samples cannot cover all numerators and divisors", "anchors": ["src/int/limb.rs: wrapping_div_rem_ulimb, wrapping_div_rem_ilimb, overflowing_div_rem_ilimb, checked_div_rem_ilimb", "src/math/div.rs: limb"]}
{"id": "C50", "title": "Division by scalars wider than a limb", "statement": "Dividing by a non-zero two-limb, u64 or u128 scalar (or their signed counterparts) returns the exact quotient and remainder, and dividing by zero panics.", "quantifier": "for every limb width (32 or 64 bits), every type width that is a multiple of 128 bits and at least 256 bits, for all numerators and all divisors", "why_tests_cant": "the failing inputs need a quotient-digit estimate that is too large, which has probability about 2^-W for random operands", "anchors": ["src/math/div.rs: wide, from_u128, full", "src/uint/limb.rs: wrapping_div_rem_uwide, wrapping_div_rem_u64, wrapping_div_rem_u128", "src/int/limb.rs: wrapping_div_rem_uwide, wrapping_div_rem_iwide, wrapping_div_rem_i128"]}
{"id": "C51", "title": "FromStr accepts exactly the decimal numerals", "statement": "s.parse() returns Ok(v) exactly when s is a decimal numeral (optional '+', and '-' for signed types, then at least one decimal digit) whose value v fits the type, whichever of the three paths (64-bit, 128-bit, from_str_radix) the string's length selects.", "quantifier": "for every limb width (32 or 64 bits), every type width that is a multiple of 128 bits and at least 256 bits, for all byte strings and both pointer-width paths", "why_tests_cant": "Strings are unbounded, and the path taken changes with the length; the short paths must never overflow the primitive parser.", "anchors": ["src/uint/traits.rs: FromStr", "src/int/traits.rs: FromStr", "src/parse.rs: from_str_radix"]}
{"id": "C52", "title": "Formatting honours a minimum width", "statement": "With a width set, Binary, Octal, LowerHex and UpperHex print the fill character as often as needed to reach the width, followed by the prefix (if alternate) and the digits; Display pads to the width as well.", "quantifier": "for every limb width (32 or 64 bits), every type width that is a multiple of 128 bits and at least 256 bits, for all values and formatter flags", "why_tests_cant": "The interplay of width, prefix and number of digits has as many cases as there are values and widths.", "anchors": ["src/uint/traits.rs: Binary, Octal, LowerHex, UpperHex, Display", "src/int/traits.rs"]}
{"id": "C53", "title": "Exponent form denotes the value", "statement": "LowerExp and UpperExp print an optional sign, the first decimal digit, a point, the remaining digits, the exponent character and the number of remaining digits; one-digit values have no point (as for the primitive types).", "quantifier": "for every limb width (32 or 64 bits), every type width that is a multiple of 128 bits and at least 256 bits, for all values and formatter flags", "why_tests_cant": "All values; the exponent is the digit count, which changes at every power of ten.", "anchors": ["src/uint/traits.rs: LowerExp, UpperExp", "src/int/traits.rs: LowerExp, UpperExp"]}
{"id": "C54", "title": "Limb access does not depend on the byte order", "statement": "Reading and writing through ne_index!, get_limb, get_wide, the reinterpretation as double limbs, the splitting of a u128 and the operations that index the array directly give on a big-endian target, where the array is stored most significant limb first, the same result as on a little-endian one.", "quantifier": "for every limb width (32 or 64 bits), every type width that is a multiple of 128 bits and at least 256 bits, on little- and big-endian targets, for all values and indices, including out-of-range ones", "why_tests_cant": "No big-endian host is in CI, so a wrong offset in the big-endian branch is never executed.", "anchors": ["src/util.rs: to_ne_index, ne_index, swap_array, u128_to_limb", "src/shared/extensions.rs: get_limb, get_wide", "src/shared/bitops.rs: count_ones, not_const, bitand_const, bitor_const, bitxor_const", "src/shared/endian.rs: to_ne_wide, from_ne_wide"]}
{"id": "C55", "title": "Conversions to and from primitive integers through num-traits are exact", "statement": "ToPrimitive succeeds exactly when the value is representable in the target primitive and then returns that value; FromPrimitive succeeds exactly on representable values and keeps them; converting in and back out is the identity; AsPrimitive reduces modulo the target width outbound and is exact inbound.", "quantifier": "for every limb width (32 or 64 bits), every type width that is a multiple of 128 bits and at least 256 bits, for all values, every primitive integer type, every pointer width from 16 to 128 bits", "why_tests_cant": "Each of the 24 conversions has its own pair of bounds; an off-by-one at one bound is one value out of 2^BITS, and isize/usize depend on the target.", "anchors": ["src/uint/traits.rs: FromPrimitive, ToPrimitive", "src/int/traits.rs: FromPrimitive, ToPrimitive", "src/shared/num_traits_impls.rs: AsPrimitive"]}
{"id": "C56", "title": "NumCast keeps every representable value", "statement": "NumCast::from succeeds exactly when the source value is representable in the target type, and returns that value.", "quantifier": "for every limb width (32 or 64 bits), every type width that is a multiple of 128 bits and at least 256 bits, for all values, primitive sources and big-integer sources", "why_tests_cant": "A test on small values cannot see that values beyond 128 bits are dropped.", "anchors": ["src/uint/traits.rs: NumCast", "src/int/traits.rs: NumCast"]}
{"id": "C57", "title": "num-traits Zero, One, Signed, MulAdd and PrimInt shifts have their documented meaning", "statement": "zero/one and their tests, abs, abs_sub (positive difference), signum, is_positive/is_negative, mul_add and the signed/unsigned shifts return the documented value, or panic exactly on overflow or an out-of-range shift when checks are on.", "quantifier": "for every limb width (32 or 64 bits), every type width that is a multiple of 128 bits and at least 256 bits, for all values, checks on and off", "why_tests_cant": "The sign tests differ only at zero, the difference only overflows between far-apart operands, and the shift kinds only differ on negative bit patterns.", "anchors": ["src/int/traits.rs: Signed, PrimInt", "src/uint/traits.rs: PrimInt", "src/shared/num_traits_impls.rs: Zero, One, MulAdd"]}
{"id": "C58", "title": "The variants of an operation agree with each other", "statement": "For every operation with wrapping, overflowing, checked, strict, saturating and operator forms: the wrapping form returns the first component of the overflowing form; the checked form is None exactly when the flag is set and otherwise that value; the strict form panics exactly then; the operator does so with overflow checks on and wraps with them off; the saturating form keeps the value when the flag is clear and otherwise returns a bound. Also where the answer itself is wrong.", "quantifier": "for every limb width (32 or 64 bits), every type width that is a multiple of 128 bits and at least 256 bits, for all values, all scalar kinds, checks on and off", "why_tests_cant": "Each variant is separate code; a test suite compares each with the primitive type on inputs where both work, not with each other on the inputs where the common routine is wrong.", "anchors": ["src/shared/checked.rs", "src/shared/overflowing.rs", "src/shared/wrapping.rs", "src/shared/strict.rs", "src/shared/saturating.rs", "src/shared/limb.rs", "src/int/limb.rs"]}
{"id": "C59", "title": "The overflow-check setting only turns answers into panics", "statement": "Compiling the crate with or without overflow checks does not change the result of any wrapping, overflowing, checked, strict or saturating form, comparison, bit operation, shift method, parser, formatter or conversion; for the operators and the plain inherent methods the build with checks returns the same value or panics.", "quantifier": "for every limb width (32 or 64 bits), every type width that is a multiple of 128 bits and at least 256 bits, for all values, all scalar kinds, all strings, radices and buffers", "why_tests_cant": "The setting reaches every primitive operation inside the crate; a test run exercises one setting, and an intermediate overflow that would panic in one build is one input among 2^BITS.", "anchors": ["build.rs: have_overflow_checks", "src/shared/ops.rs", "src/int/ops.rs", "src/uint/ops.rs", "src/write.rs", "src/parse.rs", "src/int/limb.rs"]}
{"id": "C60", "title": "Signed rounding divisions panic as documented", "statement": "div_euclid, rem_euclid, div_floor and div_ceil on the signed types panic when the divisor is zero or when the minimum is divided by -1, whatever the overflow-check setting (the documented behaviour).", "quantifier": "for every limb width (32 or 64 bits), every type width that is a multiple of 128 bits and at least 256 bits, for all values, checks on and off", "why_tests_cant": "MIN / -1 and 0 / 0 are single points, and the documented independence of the setting needs two builds.", "anchors": ["src/shared/docs.rs: div_by_zero_signed_doc", "src/int/ops.rs: div_euclid, rem_euclid, div_floor, div_ceil"]}
{"id": "C61", "title": "Quotient-only and remainder-only scalar divisions", "statement": "The div and rem methods by a limb, wide limb, 32-, 64- or 128-bit scalar (plain, wrapping, overflowing and checked; unsigned and signed scalar) return the quotient and remainder of the two numbers (rounding down with remainder at least zero for an unsigned scalar, truncating for a signed one, as documented for the combined div_rem) whenever the divider's estimate is exact (C50), the checked forms return None exactly for the documented divisors, and each form is the projection of the combined operation.", "quantifier": "for every limb width (32 or 64 bits), every type width that is a multiple of 128 bits and at least 256 bits, for all values and all scalars of every kind", "why_tests_cant": "Ten scalar kinds times sixteen methods times 2^BITS values; the deviations sit at the minimum value and at carry corners of the divider.", "anchors": ["src/shared/limb.rs", "src/int/limb.rs"]}
{"id": "C62", "title": "Operator forms", "statement": "a + b, a + &b, a += b and a += &b (and the same for - * / % & | ^ << >> ! and unary minus) compute the same number; a sequence of in-place operations computes the integer expression when every intermediate value is representable, and modulo 2^BITS without overflow checks; Default is zero, Debug prints like Display, From a primitive keeps its value.", "quantifier": "for every limb width (32 or 64 bits), every type width that is a multiple of 128 bits and at least 256 bits, for all values, all sequences of operations of any length, all shift-amount types", "why_tests_cant": "Sequences of arbitrary length, and dozens of macro-generated trait impls, of which a test calls a few.", "anchors": ["src/shared/traits.rs", "src/shared/ops.rs", "src/shared/bitops.rs", "src/shared/shift.rs", "src/int/traits.rs", "src/uint/traits.rs"]}
{"id": "C63", "title": "num-traits forwards and the error type", "statement": "The num-traits impls that forward to an inherent method (saturating, wrapping and checked arithmetic, Euclidean division, shifts, negation, power, mul_add_assign, bounds, from_str_radix) compute the number the trait documents or None; distinct error kinds have distinct texts and the conversion from the standard error type loses nothing.", "quantifier": "for every limb width (32 or 64 bits), every type width that is a multiple of 128 bits and at least 256 bits, for all values, shift amounts, exponents, strings and radices", "why_tests_cant": "The impls are generated by macros; a swap of two names is visible only on inputs where the two methods differ.", "anchors": ["src/shared/num_traits_impls.rs", "src/error.rs"]}
{"id": "C64", "title": "Scalars, text, bytes and division do not depend on the limb size or the machine byte order", "statement": "Two builds of one type width with the same overflow-check setting agree on fixed-width scalar operations, parsing (value or error), every textual form, byte and word arrays (little- and big-endian forms also across machine byte orders) and all division forms: equal integers in, equal integers, texts, bytes or the same panic out.", "quantifier": "for every pair of limb widths (32 or 64 bits), every type width that is a multiple of 128 bits and at least 256 bits, every machine byte order on either side, for all values, scalars, strings, buffers, radices and format flags", "why_tests_cant": "The tests run on one build; the relation is between two compilations of the source on different machines.", "anchors": ["src/int/limb.rs", "src/uint/limb.rs", "src/parse.rs", "src/write.rs", "src/shared/endian.rs", "src/util.rs", "src/math/div.rs"]}
{"id": "C65", "title": "Debug assertions never fire and never change a result", "statement": "For every public operation that can reach one of the crate's nine debug_assert! conditions (negation, absolute value, powers, shifts, rotations, division in all forms, division by scalars, multiples, logarithms, formatting, parsing) the result with debug assertions compiled in equals the result without them, for all arguments, panicking ones included.", "quantifier": "for every configuration (limb width, type width, overflow checks on or off) and all arguments", "why_tests_cant": "Tests run in one profile; equality of two compilations over all inputs, including the rare correction paths of long division, cannot be enumerated.", "anchors": ["src/math/shift.rs:91", "src/math/shift.rs:215", "src/math/div.rs:438", "src/math/div.rs:533", "src/math/div.rs:551", "src/shared/wrapping.rs:34", "src/shared/overflowing.rs:44", "src/int/wrapping.rs:209"]}
{"id": "C66", "title": "Multi-word arithmetic from the carry operations", "statement": "Chaining unsigned carrying_add over lists of words of any length adds the numbers (sum modulo the span, last carry exactly when the sum does not fit); chaining borrowing_sub subtracts and its last borrow is the comparison; chaining carrying_mul multiplies by one word; the schoolbook product built from these is exact for any two lengths; adding and then subtracting gives the words back.", "quantifier": "for every limb width (32 or 64 bits), every type width that is a multiple of 128 bits and at least 256 bits, for all lists of words of any length and all words", "why_tests_cant": "The number of words is unbounded; a wrong carry shows only when it propagates through a chain.", "anchors": ["src/shared/bigint.rs", "src/uint/ops.rs:270", "src/math/bigint.rs"]}
{"id": "C67", "title": "Expressions of any shape", "statement": "Evaluating an expression of + - * unary minus, complement, and, or, xor and left shift with the wrapping methods gives the value of the integer expression modulo 2^BITS, the same limbs for signed and unsigned, and every identity of the integers holds; with overflow checks the operators give the exact value or panic, exactly when an intermediate number is not representable, and the checked methods give the value or None in the same cases; without checks the operators are the wrapping methods.", "quantifier": "for every limb width (32 or 64 bits), every type width that is a multiple of 128 bits and at least 256 bits, for all expressions of any size, all values of the variables, all shift amounts below BITS", "why_tests_cant": "Expressions are unbounded in shape; tests apply one operation at a time.", "anchors": ["src/shared/ops.rs", "src/shared/wrapping.rs", "src/shared/checked.rs", "src/int/traits.rs", "src/uint/traits.rs"]}
{"id": "C68", "title": "The repository's random tests, for all inputs", "statement": "Every random test of devel/tests/ops.rs (agreement with another big-integer library and with primitives) answers true on every input of the test's input space, for additive, bitwise, shift, counting, conversion, unsigned product and scalar tests; signed products and powers answer true exactly outside the missed overflow window; division tests panic, answer false or answer true in exactly characterised cases.", "quantifier": "for every 256-bit build (32- or 64-bit limbs, overflow checks and debug assertions on or off), for all pairs of 128-bit halves, all shift amounts and exponents in u32, all scalars of the kind", "why_tests_cant": "They are the tests: random sampling over 2^512 inputs practically never meets the failing ones.", "anchors": ["devel/tests/ops.rs", "devel/tests/util.rs"]}
{"id": "C69", "title": "The public array functions, for every length", "statement": "Each function of the public math module that works on limb arrays computes the exact integer result reduced to the array's size, with the documented overflow flag, for arrays of every accepted length and not only the lengths used by the 256-bit types; shorter arrays panic. Signed product flags miss the products just below the least number; array division is exact except in exactly characterised correction cases.", "quantifier": "for both limb widths, every build setting, all array lengths, all digit values, all scalars and shift amounts", "why_tests_cant": "The repository exercises these functions only at the four lengths its types use and at two limbs; the length is unbounded.", "anchors": ["src/math/add.rs", "src/math/sub.rs", "src/math/mul.rs", "src/math/div.rs", "src/math/shift.rs", "src/math/rotate.rs"]}
{"id": "C70", "title": "The repository's random tests of the array functions, for all inputs", "statement": "Thirty-one of the thirty-four random tests of devel/tests/native_math.rs and the three double-limb tests of devel/tests/div_math.rs answer true on every input; the three tests of the signed overflowing product answer false exactly when the product lies strictly between -(2^63+2^32) and -2^63.", "quantifier": "for every build (32-bit limbs for native_math.rs, both widths for div_math.rs), all 64-bit and 32-bit inputs of the tests' types", "why_tests_cant": "They are the tests: the failing products form a window 2^32 wide in a range 2^127 wide, far too rare for sampling.", "anchors": ["devel/tests/native_math.rs", "devel/tests/div_math.rs"]}
{"id": "C71", "title": "The alternative algorithms of the benchmarks", "statement": "The three left shifts, three right shifts and three products of double words and the bit counts in devel/benches compute the exact integer result (the right shifts only with the words read most first). The benchmark's division by multiplication uses a wrong half of the middle sum in its high product, so it is right exactly when the two halves agree; ten divided by ten gives zero. Its prepared constants are right for the true high product on every dividend.", "quantifier": "for both word widths, every build setting, all words, all shift amounts, all 256-bit dividends", "why_tests_cant": "The benchmarks have no correctness checks at all; the inputs are pairs of 64- or 128-bit words.", "anchors": ["devel/benches/shift_algos.rs", "devel/benches/mul_algos.rs", "devel/benches/bit_algos.rs", "devel/benches/div_by_mul.rs"]}
{"id": "C72", "title": "The division scripts in etc/", "statement": "The branching divider of etc/libdivide.py answers exactly for powers of two and for divisors whose rest is near the divisor, and then gives the exact quotient and remainder of every positive dividend; its general case always fails on an unassigned variable. The branchless divider answers on fewer divisors and its sum is wrong; with the corrected sum its constants divide exactly. etc/magic.py chooses a multiplier that divides exactly whenever the logarithm is not too small; its fast path is exact below the limit and wrong above, because its high product drops words.", "quantifier": "for all bit sizes (up to 2^14 where the shift field is read), all divisors, all dividends", "why_tests_cant": "The scripts have no tests; the divisors and dividends are unbounded integers and the wrong cases need particular residues.", "anchors": ["etc/libdivide.py", "etc/magic.py"]}
{"id": "C73", "title": "One-limb helpers, hashing and the remaining trait forwards", "statement": "The one-limb carry, borrow and product helpers return the exact sum, difference or product split into limb and carry, and the signed helpers wrap and flag overflow exactly even when the carry repairs the sum. Two stored values are equal, and feed the same data to a hasher, exactly when they are the same number, on both byte orders. The Saturating, FromBytes, ToBytes and AsPrimitive (char, bool) impls return the documented value.", "quantifier": "for both limb widths, every build setting and byte order, all limbs, carries, values and code points", "why_tests_cant": "The repository has no tests of the signed helpers or of hashing; the repairing carry needs sums exactly one out of range.", "anchors": ["src/math/bigint.rs", "src/shared/mod.rs:63", "src/shared/num_traits_impls.rs"]}
{"id": "C74", "title": "A division step that needs correcting is rare and recognisable", "statement": "A quotient digit is overestimated only when the window's remainder is within a number one limb shorter of the divisor, or the window and divisor have equal top limbs and the digit is 2^W-2. Of the D*2^W possible windows at most 3*D are overestimated, and with two significant divisor limbs only the second case occurs. If no step of x/y is near in this sense, unsigned division returns the exact quotient and remainder; a wrong result needs a divisor of two limbs or more, a larger dividend and such a step.", "quantifier": "for every limb width, divisor length of two limbs or more and window; for every valid build setting and all values", "why_tests_cant": "At most three windows in 2^W need a correction, so random division tests practically never meet one at W = 32 or 64.", "anchors": ["src/math/div.rs"]}
{"id": "C75", "title": "The x86_64 division instruction gives the same divisions", "statement": "The asm block of div_rem_word returns quotient and remainder of RDX:RAX by the divisor for any register contents and any other operand register, and traps exactly when the quotient does not fit. It differs from the portable variant only with debug assertions off and a high word not below a nonzero divisor. No caller reaches that case: limb, wide and full division of arrays, and signed and unsigned division of the public types, return the same value or fail alike in both builds.", "quantifier": "for every register allocation and contents, all words; for every build setting with 64-bit limbs, all arrays and values", "why_tests_cant": "A test run exercises one of the two builds; the unreachable case is unreachable for a reason (loop invariants) that no sample shows.", "anchors": ["src/math/div.rs:437"]}
{"id": "C76", "title": "Every division form, decided", "statement": "For divisors other than zero (and not MIN / -1), each division form is characterised in every case. A quotient is right unless the division panics, which happens exactly when the divisor fills all limbs and some quotient digit needs a correction. A remainder or Euclidean remainder is right exactly in the exact divisions; otherwise it is off, away from zero, by more than the divisor. Euclidean quotients and floor and ceiling division are right also when the remainder is non-zero or the signs need no rounding. is_multiple_of is wrong exactly when it denies a true multiple; next_multiple_of is never right outside the exact divisions.", "quantifier": "for every valid build setting, all values, both signednesses, the wrapping, operator, checked, strict and overflowing variants", "why_tests_cant": "The failing inputs are vanishingly rare for 64-bit limbs, so sampled tests can neither find nor delimit them.", "anchors": ["src/math/div.rs", "src/uint/wrapping.rs", "src/int/wrapping.rs", "src/uint/ops.rs", "src/int/ops.rs"]}
{"id": "C77", "title": "Signed multiplication, decided everywhere", "statement": "A signed product or power p passes for representable exactly when -(2^(BITS-1) + 2^(BITS-W)) < p < 2^(BITS-1); it is then shown as p, or as p + 2^BITS when below the least number. Overflowing, checked, strict, operator and saturating multiplication and power, scalar multiplication, mul_add, and every expression evaluated with operators (checks on) or with checked methods follow this rule and no other. A returned product is wrong exactly when its sign is not the product of the signs of the factors; factors of equal sign never give a wrong one.", "quantifier": "for every valid build setting, all values, exponents, scalars and expressions", "why_tests_cant": "The window of wrong answers is a 2^-(W-1) part of the products near the lower limit, and expressions are unboundedly many.", "anchors": ["src/int/overflowing.rs", "src/int/checked.rs", "src/int/ops.rs", "src/math/mul.rs"]}
{"id": "C78", "title": "Division by scalars, decided", "statement": "Dividing by a non-zero scalar panics exactly when the scalar has two limbs, the numerator more, and some quotient digit needs a correction. Otherwise unsigned quotients and signed quotients by signed scalars are right. Remainders are right exactly in the exact divisions; the others occur only with 128-bit scalars over 32-bit limbs, where an unsigned remainder is too large by more than the divisor. Signed division by unsigned scalars (rounding down): with overflow checks every inexact division of a negative number panics, without them the quotient is wrong exactly for multiples of the divisor.", "quantifier": "for every valid build setting, all values, scalars of every kind, and the wrapping, plain, checked and overflowing forms", "why_tests_cant": "The deviating inputs need a quotient digit that is overestimated, at most three in 2^W windows; sampled tests do not meet them.", "anchors": ["src/math/div.rs", "src/uint/limb.rs", "src/int/limb.rs", "src/shared/limb.rs"]}
{"id": "C79", "title": "Reading numbers and logarithms, decided", "statement": "A string with a minus sign is read, by a signed type, as zero if it is a lone minus, as its value if that is representable, and as a positive number exactly when the overflow missed by signed multiplication happens at its last digit; such strings exist in every radix. Every error is decided in the same way. All other strings are read as their value, a lone plus as zero. The checked logarithm to a base is None, a value or a panic exactly as listed, the value being the floor of the logarithm; to base one the unsigned loop never ends without overflow checks and panics after 2^32 - log2 x rounds with them.", "quantifier": "for every valid build setting, all byte strings, radices 2 to 36, all arguments and bases", "why_tests_cant": "The misread strings are 2^(BITS-W) out of all numerals just below the smallest value; the panicking logarithms need a base of all limbs and an overestimated quotient digit.", "anchors": ["src/parse.rs", "src/uint/checked.rs", "src/int/checked.rs", "src/uint/ops.rs", "src/int/ops.rs"]}
{"id": "C80", "title": "Laws of the bit operations", "statement": "As sequences of calls: and, or, xor and not form a Boolean algebra; shifts compose, distribute over the bitwise operations and mask when undone; rotations compose, depend only on the amount modulo the width, are the or of two shifts and distribute over the bitwise operations; addition is xor plus the shifted carries, negation is complement plus one; x & -x isolates and x & (x-1) clears the lowest set bit; the counts add up to the width, obey inclusion-exclusion and do not change under rotation, byte swap or bit reversal; a value is a power of two exactly when one bit is set; complement and bit reversal exchange the four run lengths; the trailing zeros are the bits set in !x & (x-1).", "quantifier": "for every valid build setting and byte order, all arguments and all amounts in range", "why_tests_cant": "Each law relates several loops with separate limb and bit boundaries; agreement on samples says nothing about the remaining patterns and amounts.", "anchors": ["src/shared/bitops.rs", "src/uint/bitops.rs", "src/int/bitops.rs", "src/shared/endian.rs", "src/uint/ops.rs"]}
{"id": "C81", "title": "Order, overflow tests and distance across the families", "statement": "The comparison is a total order whose predicates, equality and reversal agree with it; unsigned order is the lexicographic order of the big-endian bytes on machines of either byte order, and signed order is unsigned order after flipping the top bit. The overflow flag of unsigned addition is each of sum < x, sum < y, y > !x, and of subtraction x < y and x < difference; for signed values it is the top bit of (x^s)&(y^s), respectively (x^y)&(x^d). The distance is a metric that leads from one argument to the other, the midpoint is symmetric and lies between, a signed value is its sign times its magnitude, and saturating addition and subtraction preserve the order.", "quantifier": "for every valid build setting and byte order, both signednesses, all arguments", "why_tests_cant": "The tests compare each function with a primitive model on samples; that independent loops (compare, carry, byte layout, bit operations) agree with each other on every pattern is a universal statement about pairs and triples of 256-bit values.", "anchors": ["src/shared/ord.rs", "src/shared/endian.rs", "src/uint/overflowing.rs", "src/int/overflowing.rs", "src/uint/ops.rs", "src/int/ops.rs"]}
{"id": "C82", "title": "What a spelling can change, and the order of numerals", "statement": "Parsing depends on the digits only: strings agreeing byte by byte up to the spelling of digits (so, up to letter case), and strings differing by zeros after the sign or by a plus sign, give the same result, errors included, although the length selects between two loops; a minus sign before a numeral read as x gives the negation of x. FromStr agrees, except that the error for an unsigned numeral with a minus sign changes with its length. Printed numerals use the least number of digits, and those of one radix are ordered by length and then by bytes exactly as the comparison orders the values.", "quantifier": "for every valid build setting, all byte strings, radices 2 to 36, any number of leading zeros, all values and buffers long enough", "why_tests_cant": "Padding with zeros switches from the unchecked to the checked loop at a length depending on radix and width; only a universal statement covers every length.", "anchors": ["src/parse.rs", "src/write.rs", "src/uint/traits.rs", "src/int/traits.rs", "src/shared/ord.rs"]}
{"id": "C83", "title": "The smallest numerator that goes wrong, for every divisor", "statement": "For every divisor there is a formula, in its two leading limbs after scaling, for the smallest numerator whose division overestimates a quotient digit, or none. Below it every form of division, remainder, Euclidean division and division by scalars is right, at it the remainder is wrong or the call panics; so the divisors that are right for every numerator are exactly those whose number lies outside the type. Every divisor that is a one-limb number times a power of two is among them, in particular powers of two and powers of ten with 5^k below the limb base; dividing by a power of two is shifting and masking, and being a multiple of one is having that many trailing zeros.", "quantifier": "for every valid build setting, both signednesses, all divisors and all numerators; the arithmetic part for every limb width", "why_tests_cant": "The wrong results are rare: random tests do not meet them, and that a divisor never goes wrong is a statement about all 2^256 numerators.", "anchors": ["src/math/div.rs", "src/uint/ops.rs", "src/int/ops.rs", "src/shared/bitops.rs"]}
{"id": "C84", "title": "The division defects are local: correcting one step makes every division form exact", "statement": "Take the published code and change only the routine where a division error arises: adding the divisor back into the right limbs when a quotient digit was overestimated, comparing with zero before the equality shortcut, and dividing by two-limb and 128-bit scalars through the corrected routine. Leave every caller as published, which is checked: the callers are written over an arbitrary division and are identical to the published ones when that division is the published one. Then for all values and all divisors other than 0 and MIN / -1, every form of quotient, remainder, Euclidean quotient and remainder (wrapping, operator, checked, strict, overflowing, saturating), rounding down and up, next multiple, multiple test, logarithm (with its two comparisons corrected) and division by scalars of any width gives the mathematical answer. Zero divisors panic or give None in every form and build, and MIN / -1 wraps, is flagged, refused or clamped.", "quantifier": "for every valid build setting, both signednesses, all values, all divisors and all scalar widths; about the corrected routines, not the published ones", "why_tests_cant": "That a proposed correction is complete, and that no caller adds an error of its own, concerns all inputs; the failing ones are too rare for random tests.", "anchors": ["src/math/div.rs", "src/uint/ops.rs", "src/int/ops.rs", "src/shared/ops.rs", "src/uint/limb.rs", "src/int/limb.rs"]}
{"id": "C85", "title": "Three more local corrections: product flag, 128-bit scalars, lone sign", "statement": "Change only the sign test of the signed overflowing product, the two helpers splitting a 128-bit scalar together with the routine called on their parts, and the test for an input that is a sign alone; leave every caller as published (checked against the published definitions). Then for all inputs: every form of multiplication and of exponentiation (overflowing, checked, strict, operator, saturating) reports exactly the results outside the type and otherwise gives the exact one, mul_add panics exactly when product or sum leaves the range, additions, subtractions and products with scalars of every width and sign are right on every platform, from_str_radix and FromStr read exactly the numerals whose value fits, report a numeral out of range by its sign and the empty string as empty, and agree with each other on all texts but a minus before an unsigned number.", "quantifier": "for every valid build setting, both signednesses, all values, all exponents below 2^32, all scalars of all widths, all byte strings and radices 2 to 36; about the corrected routines, not the published ones", "why_tests_cant": "The published flag is wrong only in a narrow window of products; that a correction leaves no window, in any caller, is a statement about all pairs of values.", "anchors": ["src/math/mul.rs", "src/util.rs", "src/parse.rs", "src/int/limb.rs", "src/shared/overflowing.rs", "src/shared/checked.rs", "src/int/saturating.rs"]}
{"id": "C86", "title": "The remaining findings corrected: shifts, carries, rounding, conversion, writing", "statement": "Change, each at one place: the comparison of a shift amount, the shift by an amount of the type itself, the unbounded right shift of a negative number, the signed carry flag, the adjustment in midpoint, the overflow setting in abs, the refusals of the four signed rounding divisions (over the division of C84), the comparison in the conversion from the unsigned type, the comparison in is_positive, the writing of negative numbers, the place of the padding and the point of a one-digit mantissa. Then for all inputs: amounts below BITS of every primitive type are taken and all others refused, a right shift of any length divides rounding down, the carry flags say exactly whether the exact sum or difference left the type, midpoint rounds down, abs behaves like the operators, the rounding divisions panic exactly where documented and are exact elsewhere, the conversion accepts exactly the values of the signed type, to_str_radix writes the sign and the numeral of the magnitude for every number and the corrected parser reads every number back, and a formatted number is its sign or prefix and numeral padded on the left to the width.", "quantifier": "for every valid build setting, both signednesses, all values, all amounts of all primitive types, all radices 2 to 36, all buffers and all formatter flags; about the corrected routines, not the published ones", "why_tests_cant": "That one changed place suffices, with no input left over, quantifies over all values; the round trip over all numbers, radices and buffers.", "anchors": ["src/shared/shift.rs", "src/shared/ops.rs", "src/shared/unbounded.rs", "src/shared/bigint.rs", "src/int/ops.rs", "src/int/traits.rs", "src/uint/traits.rs", "src/write.rs"]}
{"id": "C87", "title": "Client programs of any shape", "statement": "Take programs with variables of the unsigned and signed type, nested expressions over 34 operations (operators, shifts, powers, all division forms, wrapping, saturating, casts, midpoint, max, min), comparisons, branches on checked results and on overflow flags, and loops, and give them their meaning over the integers. Run with the corrections of C84-C86, every program started on corresponding stores ends with exactly the values foreseen, panics exactly where foreseen and runs on exactly where foreseen. Run as published, it does so whenever no operation along the way meets an input of an explicit list; the list is exact, that is, an operation does what is meant off it and does not on it. Programs without division, signed multiplication and the few other operations on the list need no condition. Two builds of one width with limbs of 32 and 64 bits run every program alike, and watching a run for longer does not change how it ended.", "quantifier": "for every valid build setting with and without overflow checks, all programs, all stores, all amounts of fuel", "why_tests_cant": "Programs, stores and runs are unbounded; that the list of defects is neither too short nor too long is a statement about every input of every operation.", "anchors": ["src/shared/ops.rs", "src/shared/wrapping.rs", "src/shared/checked.rs", "src/shared/overflowing.rs", "src/uint/ops.rs", "src/int/ops.rs", "src/math/div.rs"]}
{"id": "C88", "title": "The order traits as clients see them", "statement": "cmp, partial_cmp and the four comparison operators of both types follow the order of the integers. max and min, which std derives from them, give the greater and the smaller of their arguments, whichever of its two spellings is used, and between them return both arguments. clamp panics exactly when the bounds are in the wrong order, and otherwise returns one of its three arguments, namely the value between the bounds nearest to the number.", "quantifier": "for every valid build setting, both signednesses, all values", "why_tests_cant": "The statements are about all pairs and triples of wide values.", "anchors": ["src/shared/ord.rs"]}
{"id": "C89", "title": "The random data of the benchmarks", "statement": "gen_n of devel/benches/input.rs never panics for a strategy the type has, and returns the requested number of arrays of the requested length; each entry lies in the range of its strategy, and every second entry is zero for the two simple strategies. Every such list of arrays comes up for some generator, so nothing narrower can be said. The signed strategies panic for unsigned types. to_u256 and to_i256 join two 128-bit halves into the number low + 2^128 high, the low half read as unsigned; so the strategy of small signed numbers makes no negative operand: a negative value becomes a number just below 2^128.", "quantifier": "for every width and signedness, every strategy, array length, count and generator; for every valid 256-bit build setting", "why_tests_cant": "The data are drawn from ranges of up to 2^128 values by a generator with a fresh seed.", "anchors": ["devel/benches/input.rs"]}
{"id": "C90", "title": "The benchmarks run to the end", "statement": "The benchmark groups of addition, subtraction, multiplication, shift and rotation run to the end for every strategy they use, every number of arrays and every generator, and hand black_box the sums, differences, products (with the overflow flag of finding 2), shifted and rotated numbers of the operands their names announce. The division group runs to the end with simple data, and in general exactly when no pair of operands is one on which the wide division panics; otherwise it panics. When it ends it has computed the quotients. The three functions of devel/src/lib.rs are the wrapping products and the flagged unsigned product.", "quantifier": "for every valid 256-bit build setting, every used strategy, count and generator", "why_tests_cant": "Whether a benchmark panics depends on the drawn operands, which the fresh seed changes at each run.", "anchors": ["devel/benches/add.rs", "devel/benches/sub.rs", "devel/benches/mul.rs", "devel/benches/div.rs", "devel/benches/shift.rs", "devel/benches/rotate.rs", "devel/src/lib.rs"]}
{"id": "C91", "title": "How many divisions by one divisor go wrong", "statement": "For any one divisor of n limbs, at most 6(N-n+1) in 2^W of the numerators give a wrong remainder, and at most 6 in 2^W a wrong quotient, in every form, signed or not. The order is attained: for each build setting some divisor makes at least a quarter (signed: a sixteenth) of one in 2^W of all numerators panic.", "quantifier": "for every valid build setting, form, signedness, divisor and set of distinct numerators", "why_tests_cant": "At 256 bits in 64-bit limbs the failures are fewer than one numerator in 2^59 for every divisor, yet for some divisors no fewer than one in 2^68: random testing cannot find them, and cannot show that they stay rare.", "anchors": ["src/math/div.rs", "src/uint/wrapping.rs", "src/int/wrapping.rs", "src/uint/ops.rs", "src/int/ops.rs"]}
{"id": "C92", "title": "How many signed products the overflow flag misses", "statement": "For one factor x other than 0 the flag misses at most (2^(BITS-W)-1)/|x| + 1 products that do not fit, none if |x| <= 1; over all pairs of factors it misses at most 3*BITS*2^(BITS-W) of the 2^(2*BITS); the factor -2 alone is missed with 2^(BITS-W-1)-1 others.", "quantifier": "for every valid build setting, factor and set of distinct factors or pairs", "why_tests_cant": "For 256 bits in 64-bit limbs a random pair is missed with probability below 2^-310, so no random test meets one; that there are no more needs all pairs.", "anchors": ["src/math/mul.rs", "src/int/overflowing.rs"]}
{"id": "C93", "title": "How many divisions by a scalar go wrong", "statement": "For any one scalar of m limbs, at most 6(N-m+1) in 2^W of the numerators give a wrong remainder, in every form, for unsigned numerators and for signed ones divided by signed or unsigned scalars; a scalar below 2^W never gives a wrong one.", "quantifier": "for every valid build setting, form, scalar type, scalar and set of distinct numerators", "why_tests_cant": "The failures are a vanishing fraction of the numerators for every scalar; bounding them needs all numerators.", "anchors": ["src/math/div.rs", "src/uint/limb.rs", "src/int/limb.rs"]}
{"id": "C94", "title": "What a passing random test says about an arbitrary implementation", "statement": "For every implementation of an operation, right or wrong, a random test of devel/tests/ops.rs answers true on all inputs exactly when the operation returns the expected 256-bit pattern (and flag, and None) for every operand; each comparison closure answers true exactly on agreeing results and never panics. The division tests pin the operation down only on divisors both of whose 128-bit halves are non-zero: no non-negative divisor below 2^128 and no multiple of 2^128 is tried, so an implementation wrong on all of those gets the same verdicts. A scalar test says that the scalar form and the full form agree, and the guard of the signed scalar divisions skips the minimum for every divisor but -1.", "quantifier": "for every 256-bit build, all implementations (functions from well-formed operands to results), all comparisons, all inputs of the generators", "why_tests_cant": "It is about the tests: which wrong programs they can and cannot tell apart, over all programs.", "anchors": ["devel/tests/util.rs", "devel/tests/ops.rs"]}
{"id": "C95", "title": "How many limb products and limb divisions a call performs", "statement": "Every full product, wrapping or overflowing, of either type, performs exactly N(N+1)/2 limb products whatever the operands are, and the widening one N*N; the checked unsigned product performs none when an operand is zero or the logarithms add up to the width. A wrapping product with an unsigned scalar of one limb takes N, of two limbs 2N-1; the signed scalar forms and the overflowing forms of the signed type take as many as a full product, more than documented. A power takes (set bits + logarithm of the exponent) products. A division by one limb takes N limb divisions, or one when the number fits two limbs; a longer division takes per quotient digit at most one limb division and at most N+2 limb products, and at least N products if it completes.", "quantifier": "for every build (limb width, number of limbs, overflow checks, debug assertions), both types, all operands and all scalars of the types; exponents below 2^32; any non-zero divisor", "why_tests_cant": "The number of limb operations is not observable from results, and the claims are about all operands (no operand is cheaper).", "anchors": ["src/math/mul.rs", "src/math/div.rs", "src/shared/checked.rs", "src/shared/wrapping.rs", "src/int/limb.rs", "src/uint/limb.rs", "src/lib.rs"]}
{"id": "C96", "title": "A benchmark time is printed in the right unit, accurately and in order", "statement": "human_number prints a non-negative finite time with three decimals in the largest unit of ns, \u00b5s, ms, s not above it. The number printed is off by at most half a thousandth of the unit plus a 2^-53rd of the time (exactly nearest in nanoseconds), is at least 1.000 above nanoseconds and at most 1000.000 below seconds, and a longer time is never printed as a shorter one. It is not always below 1000: in nanoseconds 1000.000 is printed exactly from 999.9995 on. A negative time is printed in nanoseconds whatever its size.", "quantifier": "for every finite f64, including subnormal and the largest ones", "why_tests_cant": "The values that round up to the next unit are a tiny part of the 2^64 doubles, and order is a property of all pairs.", "anchors": ["devel/bin/print-benches.rs"]}
{"id": "C97", "title": "The benchmark report prints one line for every benchmark, or nothing", "statement": "The report looks in the last directory named target on the path of the program and panics exactly when there is none. It prints lines exactly when the results and every group can be listed and both records of every benchmark directory (other than report) can be read and decoded; then there is one line for each benchmark in the order of the listings, with slope or else mean. Every title is printed in full and what follows starts at the same column. Any unreadable record gives the message 'base not found'.", "quantifier": "for every directory tree (with links, unreadable files and directories), every program path, every pair of JSON decoders and every list of results", "why_tests_cant": "Directory trees and contents are unbounded; failures at any depth are covered.", "anchors": ["devel/bin/print-benches.rs"]}
{"id": "C98", "title": "The machine code in the documentation computes what the functions compute", "statement": "Each x86_64 listing under an Assembly heading of math/add.rs, math/sub.rs and math/rotate.rs, run from any state, stores exactly the array (and flag) of the function it documents, returns the result pointer, keeps the callee-saved registers and changes no other byte, even when the result overlaps the operands. The documented numbers of add, adc, sub, sbb, set, xor, sar and shr are those of the listings. False for three listings (the additions of a signed limb and the wrapping subtraction of one), which are right exactly when the limb is not negative; with the sign in the middle limbs they are right for every limb.", "quantifier": "for every content of the registers and of memory, every address and every flag", "why_tests_cant": "The listings are text in comments: nothing runs them, and the operands have 512 bits.", "anchors": ["src/math/add.rs", "src/math/sub.rs", "src/math/rotate.rs"]}
{"id": "C99", "title": "The documented masking of shift amounts holds exactly for power-of-two widths", "statement": "The documentation says too large a shift amount is masked with N-1 (overflowing shifts) or loses its high-order bits (wrapping shifts). The shifts use the remainder by the number of bits. The two agree for every value and amount, for each of the left and right, signed and unsigned, wrapping and overflowing shifts, exactly when the number of bits is a power of two; so the documentation is right for 256, 512 and 1024 bits and wrong for 384.", "quantifier": "for every width the crate can be built for, every value and every u32 amount", "why_tests_cant": "A statement about all widths, values and amounts; the crate's tests use 256 bits, where the two agree.", "anchors": ["src/int/overflowing.rs", "src/shared/bitops.rs", "src/uint/bitops.rs", "src/int/bitops.rs"]}
{"id": "C100", "title": "Client programs that read and print numbers do what they mean", "statement": "Take programs with variables of both types, loops, branches and all operations of C87, which also read lines of input with parse or from_str_radix (branching on failure and end of input) and print numbers with {}, {:b}, {:o}, {:x}, {:X}, {:e}, {:E} or to_str_radix. With the local corrections of C84-C86 every such program prints the lines, leaves the values and unread input, panics and runs on exactly as its meaning over the integers and texts says. As published it does so unless an operation meets an input on a list, and the list is exact: reading fails for a sign alone and for numerals slightly below the smallest signed number, printing for one-digit numbers in exponent form and negative numbers in a radix. Programs that read unsigned numbers with parse and avoid the listed operations need no condition. Two limb sizes and two pointer sizes of one width print the same lines, and what is printed is read back as the same number.", "quantifier": "for every width, limb size, pointer size, build mode, program, initial store and input lines", "why_tests_cant": "A statement about all programs and all inputs; the defects are met at values no random test reaches.", "anchors": ["src/parse.rs", "src/write.rs", "src/uint/traits.rs", "src/int/traits.rs"]}
{"id": "C101", "title": "When printing with flags agrees with Rust's own integers", "statement": "For every combination of width, fill, alignment, +, # and 0 (no precision), Display, Binary, Octal, LowerHex, UpperHex, LowerExp and UpperExp of both types print what a primitive integer of that width would print exactly under these conditions: decimal and exponent forms need no padding, no + for unsigned numbers, and in exponent form at least two digits of which the last is not 0; the radix forms need no + and either no padding of the digits, or neither #, 0 nor an alignment other than right. Handing the digits to the standard formatter and dropping trailing zeros corrects all of them: then the texts are equal for all flags and values.", "quantifier": "for every width, limb size, build mode, value, form and combination of flags; for the radix forms the fill is not a letter, digit or plus sign", "why_tests_cant": "The flags, widths and values combine without bound, and agreement by chance must be told from agreement.", "anchors": ["src/uint/traits.rs: Binary, Display, LowerHex, UpperHex, LowerExp, UpperExp, Octal", "src/int/traits.rs: Binary, Display, LowerExp, LowerHex, Octal, UpperExp, UpperHex"]}
{"id": "C102", "title": "Cost of reading and writing numbers", "statement": "Writing a number v >= 0 in a radix takes one limb division for every digit after the first and N - 1 more for every digit of v / 2^(2W), so a number below two limbs costs one division a digit whatever the width, the count grows with the value, and a 256-bit number is printed with at most 194 divisions (which the largest one needs). Reading performs N limb products for each digit, and N (N + 1) / 2 for each digit of a long numeral of the signed type, whatever the digits read so far; a numeral that is read pays this for all of its digits, leading zeros included; an invalid byte stops it at once; from_str of fewer than 39 bytes performs none.", "quantifier": "for every width, limb size, build mode, radix, value, buffer and byte string", "why_tests_cant": "Counts of operations inside a call are not observable from its result, and the statement is about every value and string.", "anchors": ["src/write.rs: to_str_radix", "src/parse.rs: from_str_radix", "src/uint/traits.rs: Display, FromStr", "src/int/traits.rs: FromStr"]}
{"id": "C103", "title": "The commented-out base-ten logarithms", "statement": "checked_ilog10 and ilog10, which the source holds as comments until the compiler version allows them, return the largest k with 10^k <= x for every positive x of 256 bits with either limb size, None (a panic) otherwise, and agree with checked_ilog to base 10 where that answers. Dividing by 10^16 is exact with both limb sizes. At larger widths they are wrong: the loop stops when the upper half is zero, and the rest is cut to 128 bits. With a test for 128 bits they are right at every width.", "quantifier": "for every width, limb size, build mode and value", "why_tests_cant": "The code is a comment, so no test can run it; and the wrong results begin at widths the crate's own types do not have.", "anchors": ["src/uint/checked.rs: checked_ilog10 (comment)", "src/uint/ops.rs: ilog10 (comment)", "src/int/checked.rs: checked_ilog10 (comment)", "src/int/ops.rs: ilog10 (comment)"]}
{"id": "C104", "title": "Builds whose build script has another overflow setting", "statement": "build.rs sets have_overflow_checks exactly when the build script itself is compiled with overflow checks. In a crate compiled with one setting and told another, every operator, pow, next_power_of_two, shift, scalar form, carrying_mul, div_ceil, next_multiple_of, ilog and num-traits method does, on all values, what it does in a build where both settings are the build script's. Division by an unsigned scalar and to_str_radix instead follow the crate's own setting, the answer of the build script deciding only whether division by zero is noticed.", "quantifier": "for every width, limb size, pair of settings and all values", "why_tests_cant": "A test run has one pair of settings, normally equal; whether an inner unchecked operation can ever overflow needs every operand.", "anchors": ["build.rs: main", "build.rs: overflow", "src/shared/ops.rs: traits!", "src/shared/limb.rs: add_ulimb", "src/shared/shift.rs: define!", "src/int/limb.rs: wrapping_div_rem_ulimb", "src/write.rs: to_str_radix"]}
{"id": "C105", "title": "The unsafe methods are undefined exactly when documented", "statement": "unchecked_add, unchecked_sub, unsigned unchecked_mul and unchecked_neg are undefined exactly when the exact value does not fit, unchecked_shl and unchecked_shr exactly when the amount is at least BITS; otherwise they return the exact value, and they never panic. Signed unchecked_mul is exact when the product fits, and outside that undefined except for the products the overflow flag misses. After the usual tests with the crate's own functions the unchecked form is defined and exact. Every transmute has the same size on both sides, for exactly the widths that are whole wide words.", "quantifier": "for every width, limb size, build mode, all operands and amounts", "why_tests_cant": "Undefined behaviour cannot be observed by a test, and its absence has to hold for every operand the contract allows.", "anchors": ["src/shared/unchecked.rs: unchecked_add", "src/shared/unchecked.rs: unchecked_mul", "src/shared/unchecked.rs: unchecked_shl", "src/int/unchecked.rs: unchecked_neg", "src/shared/endian.rs: to_ne_bytes", "src/shared/extensions.rs: get_wide", "src/util.rs: u128_to_limb"]}
{"id": "C106", "title": "Reading single limbs, and the unsigned strict negation", "statement": "get_limb returns the bits of the number at that limb, counted from the low end, for either sign, and panics past the last limb. The least significant limb is the number modulo 2^W, and the most significant one the number divided by 2^(BITS-W) and rounded down, signed for the signed types. The limbs determine the number, and each is the lowest limb of the number shifted down. strict_neg of an unsigned number returns zero for zero and panics otherwise.", "quantifier": "for every width, limb size, build mode, all values and indices", "why_tests_cant": "Every index of every width and both signs matter; a test reads a few limbs of a few numbers.", "anchors": ["src/shared/extensions.rs: get_limb", "src/shared/extensions.rs: least_significant_limb", "src/shared/extensions.rs: most_significant_limb", "src/uint/strict.rs: strict_neg"]}
{"id": "C107", "title": "What powers and logarithms cost", "statement": "wrapping_pow, overflowing_pow, checked_pow, strict_pow and pow perform the same limb products whatever the base and whether or not the value overflows: one product of numbers per set bit of the exponent and one squaring per binary digit after the first, at most 63. checked_ilog to a base of at least two performs the products of the power it starts from, then one division of self by base, always the same one, before every pass and one product in every pass; the passes number the logarithm less floor(log2 self / (log2 base + 1)), at most half the bits of self and exactly that for base two. For a base of one limb and a number above two limbs it makes N limb divisions per division. Dividing once before the loop gives the same result for every input with base other than one.", "quantifier": "for every width, limb size, build mode, all operands and exponents", "why_tests_cant": "The count must hold for every operand and exponent, and a test observes results, not the operations performed.", "anchors": ["src/shared/overflowing.rs: overflowing_pow", "src/shared/checked.rs: checked_pow", "src/shared/ops.rs: pow", "src/uint/checked.rs: checked_ilog", "src/int/checked.rs: checked_ilog"]}
{"id": "C108", "title": "When the methods panic, and when they are documented to", "statement": "For each method with a documented panic the exact condition under which it panics. The twenty division methods: a zero divisor under a number other than zero, the failures of the long division, and for the strict methods always, for div_rem, div_euclid and rem_euclid with overflow checks, any zero divisor and MIN / -1; so a documented panic is missed only for 0 / 0 and MIN / -1 by a method that does not look first, and an undocumented one is of the long division or MIN / -1 under div_rem. next_multiple_of: a zero divisor, overflow with checks, and unsigned with checks every inexact division. Strict arithmetic and shifts, ilog2 and next_power_of_two as documented, but signed strict products and powers miss a window below MIN. ilog also below the base. Division by scalars. to_str_radix for every buffer below BITS bytes, whatever the digits.", "quantifier": "for every width, limb size, build mode, signedness, all operands, bases, radices and buffers", "why_tests_cant": "Exactness needs that no other operand panics, among 2^512 pairs, and that each documented one does.", "anchors": ["src/shared/docs.rs: strict_doc", "src/shared/docs.rs: div_by_zero_doc", "src/shared/docs.rs: div_by_zero_signed_doc", "src/shared/ops.rs: div_rem", "src/int/ops.rs: next_multiple_of", "src/uint/ops.rs: next_multiple_of", "src/write.rs: to_str_radix"]}
{"id": "C109", "title": "The methods that never panic, and the validity of every number returned", "statement": "One hundred and twenty inherent methods (the wrapping, overflowing, checked, saturating and unbounded forms of addition, subtraction, product, power, shift, negation and absolute value, the bit operations, rotations, comparisons, counts, midpoints, widening products, casts and constructors) return for every argument, and what they return is valid: numbers have exactly N limbs each in range, counts lie between 0 and the width, casts lie in the range of the type cast to. The wrapping, overflowing and checked scalar methods likewise, save the signed 128-bit ones on 32-bit limbs. So do the thirty-five conversions of endian.rs to and from bytes, limbs and words of 32, 64 and twice the limb width, on targets of either byte order, whose arrays have the right length and elements in range. Forty-five further methods (operators, strict forms, all divisions) either panic or return a valid number, never running for ever.", "quantifier": "for every width, limb size, build mode, all operands, shift amounts and exponents", "why_tests_cant": "Absence of a panic (an index out of range, an arithmetic overflow in checked builds, an assertion) must hold on every one of 2^512 operand pairs at every width.", "anchors": ["src/shared/checked.rs", "src/shared/overflowing.rs", "src/shared/wrapping.rs", "src/shared/bitops.rs", "src/shared/casts.rs", "src/uint/ops.rs", "src/int/ops.rs", "src/shared/endian.rs"]}
{"id": "C110", "title": "Which calls take the same steps whatever the values", "statement": "Reads, writes and outcomes of conditions in source order are a trace. Wrapping and overflowing addition and subtraction read each limb of both operands and write each limb once, in order, whatever the values; the bitwise operations, counts of ones and zeros, is_negative, the wrapped and the widening product, shifts and rotations by a given amount (the arithmetic right shift on numbers of one sign) and, below 4096 bits, eq_const have a trace that does not depend on the values. The other equality, the order comparisons, leading_zeros, trailing_zeros and is_positive have exactly the trace of a scan that stops at the first deciding word. The comparisons documented as non-short-circuiting do short-circuit: lt, le, gt, ge and cmp at every width, eq_const from 4096 bits on.", "quantifier": "for every width, limb size, build mode, all operands and shift amounts", "why_tests_cant": "Tests observe results, not steps taken, and independence of the values relates every two of 2^512 pairs of operands.", "anchors": ["src/shared/ord.rs", "src/shared/bitops.rs", "src/shared/wrapping.rs", "src/shared/overflowing.rs", "src/math/add.rs", "src/math/sub.rs", "src/math/mul.rs", "src/math/shift.rs", "src/math/rotate.rs", "src/int/ops.rs"]}
{"id": "C111", "title": "The text of the source, read as Rust, is the model", "statement": "The text of src/math/add.rs, sub.rs, mul.rs and bigint.rs and of the macro limb_function! is held word for word. A lexer, macro expander, parser and evaluator for the part of Rust those files use turn it into programs; running any exported function of add.rs, sub.rs or mul.rs (wrapping and overflowing, on arrays, limbs, wides, numbers of other lengths and 64-bit scalars, signed and unsigned, and the widening product) on any arguments gives exactly the outcome of the hand-written model, panics included, under each setting of limb32 and of the pointer width. Hence the text itself adds, subtracts and multiplies, with exact overflow flags, save the signed overflowing product, whose text misses an overflow.", "quantifier": "for both limb sizes, both build modes, every setting of the conditional compilation, every length below 2^31 and all limbs", "why_tests_cant": "Whether a model is a faithful translation cannot be tested on samples: it must agree with the text on every input at every length, and on panics.", "anchors": ["src/math/add.rs", "src/math/sub.rs", "src/math/mul.rs", "src/math/bigint.rs", "src/util.rs", "src/types.rs"]}
{"id": "C112", "title": "The text of the shifts and rotations is the model", "statement": "The text of src/math/shift.rs and src/math/rotate.rs, held word for word, read and run as Rust, does for every exported function (left and right, unsigned and signed, on 32, 64 and 128-bit elements and on elements of two limbs under each setting of the conditional compilation) exactly what the model does, panics included. Hence the text itself multiplies or floor-divides by the power of two, rotates, and refuses amounts that are too large in debug builds and arrays of fewer than two elements always.", "quantifier": "for every setting, build mode, number of elements (fewer than 2^32 bits in all), all elements and all 32-bit amounts", "why_tests_cant": "Whether the model is a faithful translation must hold on every input, amount and length, and on panics.", "anchors": ["src/math/shift.rs", "src/math/rotate.rs", "src/util.rs", "src/types.rs"]}
