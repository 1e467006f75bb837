{
 "claims": [
  {
   "property": "C01",
   "status": "proved",
   "theorems": [
    "C01_wrapping_add",
    "C01_wrapping_sub",
    "C01_wrapping_mul",
    "C01_wrapping_neg"
   ],
   "note": ""
  },
  {
   "property": "C02",
   "status": "proved",
   "theorems": [
    "C02_overflowing_add",
    "C02_overflowing_sub",
    "C02_checked_add",
    "C02_checked_sub",
    "C02_checked_neg",
    "C02_strict_add",
    "C02_strict_sub",
    "C02_saturating_add",
    "C02_saturating_sub"
   ],
   "note": ""
  },
  {
   "property": "C03",
   "status": "proved",
   "theorems": [
    "C03_overflowing_mul",
    "C03_checked_mul",
    "C03_strict_mul",
    "C03_saturating_mul"
   ],
   "note": ""
  },
  {
   "property": "C04",
   "status": "proved",
   "theorems": [
    "C04_wrapping_add",
    "C04_wrapping_sub",
    "C04_wrapping_mul",
    "C04_wrapping_neg",
    "C04_wrapping_abs",
    "C04_swrap_unique"
   ],
   "note": ""
  },
  {
   "property": "C05",
   "status": "proved",
   "theorems": [
    "C05_overflowing_add",
    "C05_overflowing_sub",
    "C05_overflowing_neg",
    "C05_checked_add",
    "C05_checked_sub",
    "C05_checked_neg",
    "C05_strict_add",
    "C05_strict_sub",
    "C05_strict_neg",
    "C05_saturating_add",
    "C05_saturating_sub",
    "C05_saturating_neg"
   ],
   "note": ""
  },
  {
   "property": "C06",
   "status": "partial",
   "theorems": [
    "C06_overflowing_mul_refuted",
    "C06_checked_mul_refuted",
    "C06_overflowing_mul_partial",
    "C06_checked_mul_partial"
   ],
   "note": "False of the code: the flag misses negative products between -(2^(BITS-1)+2^(BITS-W)) and MIN (refuted with witness). The flag is characterised exactly, and the derived operations are correct outside that window. C77 decides every operation built on it."
  },
  {
   "property": "C07",
   "status": "partial",
   "theorems": [
    "C07_div_rem_refuted",
    "C07_rem_refuted",
    "C07_div_rem_partial"
   ],
   "note": "False of the code: a quotient-digit estimate that needs correcting makes the division panic (divisor filling all limbs) or return a wrong remainder (both refuted with witnesses). Proved for every division satisfying exact_division; C08 shows that condition is necessary as well. C76 decides every form."
  },
  {
   "property": "C08",
   "status": "proved",
   "theorems": [
    "C08_quotient_u",
    "C08_exact_iff_u",
    "C08_exact_scaled_u",
    "C08_exact_below_u",
    "C08_panic_iff_u",
    "C08_short_divisor_u",
    "C08_forms_u"
   ],
   "note": "Quotient exact whenever the division returns; exactness, panics and the wrong remainders are characterised by iff theorems. One-limb divisors times powers of two are always exact."
  },
  {
   "property": "C09",
   "status": "proved",
   "theorems": [
    "C09_div_rem",
    "C09_checked_div_rem",
    "C09_zero"
   ],
   "note": "All forms (wrapping, plain, checked) and the zero divisor; kinds limb, u32 and, on 64-bit limbs, u64."
  },
  {
   "property": "C10",
   "status": "partial",
   "theorems": [
    "C10_checked_none_u",
    "C10_checked_none_s",
    "C10_panics_u",
    "C10_panics_s",
    "C10_wrapping_zero_partial",
    "C10_wrapping_zero_refuted",
    "C10_operator_zero_refuted"
   ],
   "note": "checked_*, strict_* and (with overflow checks) the operators are as stated. The wrapping forms and unchecked operators panic for zero divisors except 0/0, which returns quotient 1, remainder 0 (refuted)."
  },
  {
   "property": "C11",
   "status": "proved",
   "theorems": [
    "C11_wrapping_s",
    "C11_forms_s",
    "C11_min_over_m1",
    "C11_pair_s",
    "C11_pair_u",
    "C11_quotient_s",
    "C11_rem_refuted"
   ],
   "note": "For the divisions on which the magnitude division is exact; the quotient is right whenever there is one. Outside: remainder refuted."
  },
  {
   "property": "C12",
   "status": "proved",
   "theorems": [
    "C12_euclid_s",
    "C12_euclid_u",
    "C12_min_over_m1",
    "C12_euclid_refuted"
   ],
   "note": "For the divisions on which the magnitude division is exact; refuted outside."
  },
  {
   "property": "C13",
   "status": "proved",
   "theorems": [
    "C13_floor_ceil_u",
    "C13_floor_ceil_s",
    "C13_floor_u",
    "C13_rounding_refuted"
   ],
   "note": "For the divisions on which the magnitude division is exact; refuted outside."
  },
  {
   "property": "C14",
   "status": "proved",
   "theorems": [
    "C14_next_multiple_u",
    "C14_next_multiple_s",
    "C14_zero",
    "C14_is_multiple_of",
    "C14_multiples_refuted"
   ],
   "note": "For the divisions on which the magnitude division is exact; refuted outside."
  },
  {
   "property": "C15",
   "status": "proved",
   "theorems": [
    "C15_wrapping_shl",
    "C15_checked_shl",
    "C15_strict_shl",
    "C15_unbounded_shl",
    "C15_overflowing_shl"
   ],
   "note": ""
  },
  {
   "property": "C16",
   "status": "partial",
   "theorems": [
    "C16_wrapping_shr_u",
    "C16_wrapping_shr_s",
    "C16_checked_shr",
    "C16_strict_shr",
    "C16_unbounded_shr_u",
    "C16_unbounded_shr_s_partial",
    "C16_unbounded_shr_s_refuted",
    "C16_overflowing_shr"
   ],
   "note": "All proved except signed unbounded_shr, which returns 0 instead of -1 for over-long shifts of negative values (refuted); its exact behaviour is the _partial theorem."
  },
  {
   "property": "C17",
   "status": "proved",
   "theorems": [
    "C17_rotate_left",
    "C17_rotate_right",
    "C17_rotate_inverse"
   ],
   "note": ""
  },
  {
   "property": "C18",
   "status": "proved",
   "theorems": [
    "C18_count_ones",
    "C18_count_zeros",
    "C18_leading_zeros",
    "C18_trailing_zeros",
    "C18_leading_ones",
    "C18_trailing_ones",
    "C18_runs_unique"
   ],
   "note": ""
  },
  {
   "property": "C19",
   "status": "proved",
   "theorems": [
    "C19_bitwise",
    "C19_not_signed",
    "C19_signed"
   ],
   "note": ""
  },
  {
   "property": "C20",
   "status": "proved",
   "theorems": [
    "C20_swap_bytes",
    "C20_swap_bytes_twice",
    "C20_reverse_bits",
    "C20_reverse_bits_twice",
    "C20_to_be",
    "C20_to_le"
   ],
   "note": ""
  },
  {
   "property": "C21",
   "status": "proved",
   "theorems": [
    "C21_cmp_unsigned",
    "C21_cmp_signed",
    "C21_order_unsigned",
    "C21_order_signed",
    "C21_eq"
   ],
   "note": ""
  },
  {
   "property": "C22",
   "status": "proved",
   "theorems": [
    "C22_to_bytes",
    "C22_from_bytes",
    "C22_roundtrip",
    "C22_roundtrip_bytes",
    "C22_signed",
    "C22_from_signed"
   ],
   "note": ""
  },
  {
   "property": "C23",
   "status": "proved",
   "theorems": [
    "C23_limbs",
    "C23_wide",
    "C23_u32",
    "C23_u64",
    "C23_roundtrip",
    "C23_order"
   ],
   "note": ""
  },
  {
   "property": "C24",
   "status": "proved",
   "theorems": [
    "C24_from_unsigned",
    "C24_from_signed",
    "C24_from_bool_char"
   ],
   "note": ""
  },
  {
   "property": "C25",
   "status": "proved",
   "theorems": [
    "C25_as_unsigned_prims",
    "C25_as_signed_prims",
    "C25_from_signed_value",
    "C25_reinterpret",
    "C25_parity"
   ],
   "note": ""
  },
  {
   "property": "C26",
   "status": "partial",
   "theorems": [
    "C26_unsigned_from_prim",
    "C26_unsigned_from_signed",
    "C26_signed_from_unsigned_refuted",
    "C26_signed_from_unsigned_partial"
   ],
   "note": "From signed primitives and from the signed type: proved. From the unsigned type: the largest signed value is rejected (refuted); every other value is treated as stated."
  },
  {
   "property": "C27",
   "status": "partial",
   "theorems": [
    "C27_unsigned",
    "C27_signed_partial",
    "C27_complete_signed",
    "C27_window",
    "C27_plus_refuted",
    "C27_negative_refuted"
   ],
   "note": "False of the code twice (refuted): a lone sign is read as zero, and a negative numeral whose last product lands in the window the overflow check misses is read as a positive number. Unsigned: exact except for a lone plus. Signed: exact outside the lone signs and the window; every numeral of a representable value is read correctly without side conditions; the result inside the window is given. C79 decides every string."
  },
  {
   "property": "C28",
   "status": "partial",
   "theorems": [
    "C28_panic",
    "C28_total",
    "C28_empty",
    "C28_invalid_positive",
    "C28_overflow_positive",
    "C28_unsigned_minus",
    "C28_signed_minus_partial",
    "C28_window",
    "C28_window_refuted"
   ],
   "note": "Exact iff theorems for every error kind; for negative signed numerals outside the window of C27 (inside it an invalid character after the overflow hides it: refuted and characterised). C79 decides every string."
  },
  {
   "property": "C29",
   "status": "partial",
   "theorems": [
    "C29_unique",
    "C29_unsigned",
    "C29_signed_nonnegative",
    "C29_negative",
    "C29_negative_never",
    "C29_negative_refuted",
    "C29_panics"
   ],
   "note": "Unsigned and non-negative signed values: exact, with the buffer and the panics. Negative signed values: refuted; the output is characterised and proved never to be a numeral of the value."
  },
  {
   "property": "C30",
   "status": "proved",
   "theorems": [
    "C30_unsigned",
    "C30_signed",
    "C30_decimal"
   ],
   "note": ""
  },
  {
   "property": "C31",
   "status": "proved",
   "theorems": [
    "C31_binary",
    "C31_octal",
    "C31_lower_hex",
    "C31_upper_hex"
   ],
   "note": "Digits as stated; the position of prefix and padding is part of the theorem (see C52)."
  },
  {
   "property": "C32",
   "status": "proved",
   "theorems": [
    "C32_display_unsigned",
    "C32_display_signed",
    "C32_radix_unsigned",
    "C32_radix_signed_nonnegative",
    "C32_hex",
    "C32_radix_signed_refuted"
   ],
   "note": "Also for hexadecimal output and for non-negative signed to_str_radix; refuted for negative signed to_str_radix, which the statement excludes."
  },
  {
   "property": "C33",
   "status": "proved",
   "theorems": [
    "C33_wrapping_pow_u",
    "C33_wrapping_pow_s",
    "C33_overflowing_pow_u",
    "C33_checked_pow_u",
    "C33_strict_pow_u",
    "C33_saturating_pow_u",
    "C33_pow_u",
    "C33_overflowing_pow_s_partial",
    "C33_pow_s_fits_partial",
    "C33_overflowing_pow_s_refuted"
   ],
   "note": "Unsigned forms exactly as stated; signed flag additionally characterised exactly (same hole as C06)."
  },
  {
   "property": "C34",
   "status": "partial",
   "theorems": [
    "C34_checked_ilog_u_partial",
    "C34_checked_ilog_short",
    "C34_checked_ilog_s",
    "C34_checked_ilog_none",
    "C34_below_base",
    "C34_base_one_diverges",
    "C34_checked_ilog_refuted",
    "C34_checked_ilog_panic_refuted",
    "C34_checked_ilog2"
   ],
   "note": "Base two proved. General base: proved for base <= self (with the panic condition of C08); refuted for 0 < self < base (unsigned None, signed panic instead of 0); base one never returns. C79 decides every base."
  },
  {
   "property": "C35",
   "status": "proved",
   "theorems": [
    "C35_unsigned_abs",
    "C35_abs_diff",
    "C35_abs_variants",
    "C35_sign"
   ],
   "note": ""
  },
  {
   "property": "C36",
   "status": "partial",
   "theorems": [
    "C36_midpoint_u",
    "C36_midpoint_s_partial",
    "C36_midpoint_s_refuted"
   ],
   "note": "Unsigned exact. Signed rounds towards zero, not towards negative infinity as documented (refuted); exact behaviour proved."
  },
  {
   "property": "C37",
   "status": "proved",
   "theorems": [
    "C37_is_power_of_two",
    "C37_next_power_of_two"
   ],
   "note": ""
  },
  {
   "property": "C38",
   "status": "proved",
   "theorems": [
    "C38_widening_mul",
    "C38_carrying_mul",
    "C38_high_mul",
    "C38_halves"
   ],
   "note": ""
  },
  {
   "property": "C39",
   "status": "partial",
   "theorems": [
    "C39_carrying_add_u",
    "C39_borrowing_sub_u",
    "C39_carrying_add_s_partial",
    "C39_borrowing_sub_s_partial",
    "C39_carrying_add_s_refuted",
    "C39_borrowing_sub_s_refuted"
   ],
   "note": "Unsigned exact. Signed flag over-reports when a+b (a-b) is one out of range and the carry (borrow) repairs it (refuted); flag characterised exactly."
  },
  {
   "property": "C40",
   "status": "proved",
   "theorems": [
    "C40_unsigned_plus_signed",
    "C40_unsigned_minus_signed",
    "C40_signed_plus_unsigned",
    "C40_signed_minus_unsigned",
    "C40_checked_signed_diff"
   ],
   "note": ""
  },
  {
   "property": "C41",
   "status": "proved",
   "theorems": [
    "C41_wrapping",
    "C41_overflowing",
    "C41_checked",
    "C41_plain"
   ],
   "note": "All five scalar kinds; wrapping, overflowing, checked and plain forms."
  },
  {
   "property": "C42",
   "status": "proved",
   "theorems": [
    "C42_wrapping_unsigned_scalar",
    "C42_wrapping_signed_scalar",
    "C42_overflowing_unsigned_scalar",
    "C42_overflowing_signed_scalar",
    "C42_checked",
    "C42_plain",
    "C42_overflowing_mul",
    "C42_overflowing_mul_refuted"
   ],
   "note": "As stated. The multiplication flag, not part of the statement, is characterised exactly and has the hole of C06 (refuted)."
  },
  {
   "property": "C43",
   "status": "partial",
   "theorems": [
    "C43_add_refuted",
    "C43_mul_refuted",
    "C43_add_sub_panic",
    "C43_mul_exchanged",
    "C43_mul_partial"
   ],
   "note": "False of the code: add/sub panic on every input and mul uses the scalar with digits 1 and 3 exchanged (refuted; both proved as the exact behaviour for all inputs). The _partial theorem gives the scalars for which mul is right."
  },
  {
   "property": "C44",
   "status": "proved",
   "theorems": [
    "C44_add",
    "C44_sub",
    "C44_neg",
    "C44_mul_u",
    "C44_mul_s"
   ],
   "note": "Signed multiplication is covered outside the window of C06."
  },
  {
   "property": "C45",
   "status": "partial",
   "theorems": [
    "C45_shl_partial",
    "C45_shr_partial",
    "C45_amount_types",
    "C45_shl_u8_refuted",
    "C45_u8_always_panics",
    "C45_shl_big",
    "C45_shr_big",
    "C45_shl_self_partial",
    "C45_shl_self_refuted"
   ],
   "note": "Exact for every amount type that can represent BITS (all of at least 32 bits) and for big-integer amounts of the other type; refuted for 8-bit amounts (BITS truncates to 0: every shift panics) and for amounts of the type itself (never checked)."
  },
  {
   "property": "C46",
   "status": "proved",
   "theorems": [
    "C46_unsigned",
    "C46_signed",
    "C46_bits"
   ],
   "note": ""
  },
  {
   "property": "C47",
   "status": "partial",
   "theorems": [
    "C47_add_sub",
    "C47_mul",
    "C47_neg_abs",
    "C47_mixed",
    "C47_pow",
    "C47_shift",
    "C47_shift_ops",
    "C47_bits",
    "C47_compare",
    "C47_casts",
    "C47_misc",
    "C47_runs",
    "C47_primitives",
    "C47_div_partial",
    "C47_checked_mul_refuted",
    "C47_rem_refuted",
    "C47_div_refuted"
   ],
   "note": "Proved for every operation with an exact equation. False of the code (refuted) for signed overflow-aware multiplication and for division needing a correction step, whose deviations depend on the limb size; division agrees when exact in both builds."
  },
  {
   "property": "C48",
   "status": "proved",
   "theorems": [
    "C48_add_comm",
    "C48_mul_comm",
    "C48_add_assoc",
    "C48_mul_assoc",
    "C48_distrib",
    "C48_sub_add",
    "C48_neg_inverse",
    "C48_sub_is_add_neg",
    "C48_units",
    "C48_sign_agnostic"
   ],
   "note": ""
  },
  {
   "property": "C49",
   "status": "proved",
   "theorems": [
    "C49_div_rem_unsigned_limb",
    "C49_div_rem_signed_limb",
    "C49_overflow_signed_limb"
   ],
   "note": ""
  },
  {
   "property": "C50",
   "status": "partial",
   "theorems": [
    "C50_panic_refuted",
    "C50_remainder_refuted",
    "C50_zero_refuted",
    "C50_unsigned_partial",
    "C50_signed_partial",
    "C50_unsigned_outcome",
    "C50_quotient"
   ],
   "note": "False of the code (refuted three ways: panic, wrong remainder, 0/0). Proved for exact_scalar divisions; the unsigned outcome is characterised in every case and the quotient is always right. C78 decides every form."
  },
  {
   "property": "C51",
   "status": "partial",
   "theorems": [
    "C51_unsigned",
    "C51_signed_partial",
    "C51_complete_signed",
    "C51_signed_refuted",
    "C51_errors_short",
    "C51_radix",
    "C51_sign_refuted"
   ],
   "note": "Unsigned exact. Signed exact outside the window of C27 (refuted inside). The standard library's u64/i64/u128/i128 parser is modelled from its documentation. C79 decides every string."
  },
  {
   "property": "C52",
   "status": "partial",
   "theorems": [
    "C52_hex_partial",
    "C52_binary_octal_partial",
    "C52_alternate_refuted",
    "C52_display_refuted"
   ],
   "note": "False of the code (refuted): with a prefix the padding comes between prefix and digits and the prefix is not counted; Display ignores the width. Proved without prefix."
  },
  {
   "property": "C53",
   "status": "partial",
   "theorems": [
    "C53_unsigned",
    "C53_signed",
    "C53_point_refuted"
   ],
   "note": "The layout is proved for all values. False of the code for one-digit values, which print a point with nothing after it (refuted)."
  },
  {
   "property": "C54",
   "status": "proved",
   "theorems": [
    "C54_read",
    "C54_write",
    "C54_get_wide",
    "C54_get_limb",
    "C54_count_ones",
    "C54_not",
    "C54_bitwise",
    "C54_to_wide",
    "C54_from_wide",
    "C54_u128_to_limb"
   ],
   "note": "Element access and whole-array operations; the routines built from them index only through these."
  },
  {
   "property": "C55",
   "status": "proved",
   "theorems": [
    "C55_to_primitive_u",
    "C55_to_primitive_s",
    "C55_from_primitive_u",
    "C55_from_primitive_s",
    "C55_roundtrip",
    "C55_as_out",
    "C55_as_in"
   ],
   "note": ""
  },
  {
   "property": "C56",
   "status": "partial",
   "theorems": [
    "C56_from_prim_u",
    "C56_from_prim_s",
    "C56_from_big_refuted",
    "C56_from_big_partial"
   ],
   "note": "Primitive sources: proved. Big-integer sources: values beyond 128 bits are rejected, even when source and target type coincide (refuted); the exact accepted range is proved."
  },
  {
   "property": "C57",
   "status": "partial",
   "theorems": [
    "C57_zero_one",
    "C57_abs",
    "C57_signum",
    "C57_abs_sub",
    "C57_is_negative",
    "C57_is_positive_refuted",
    "C57_is_positive_partial",
    "C57_mul_add_u",
    "C57_mul_add_s",
    "C57_shifts",
    "C57_shifts_panic"
   ],
   "note": "False of the code for is_positive at zero (refuted, exact otherwise). Signed mul_add with checks on is stated for representable products; everything else as stated. C77 decides mul_add in every case."
  },
  {
   "property": "C58",
   "status": "proved",
   "theorems": [
    "C58_add_sub_mul",
    "C58_pow",
    "C58_neg_abs",
    "C58_mixed",
    "C58_shift",
    "C58_saturating_u",
    "C58_saturating_s",
    "C58_scalar_u",
    "C58_scalar_s",
    "C58_div",
    "C58_saturating_div"
   ],
   "note": ""
  },
  {
   "property": "C59",
   "status": "partial",
   "theorems": [
    "C59_arith",
    "C59_unary",
    "C59_pow_shift",
    "C59_compare",
    "C59_div",
    "C59_operators",
    "C59_unary_operators",
    "C59_shift_operators",
    "C59_scalar_u",
    "C59_scalar_s",
    "C59_scalar_div_u",
    "C59_scalar_div_refuted",
    "C59_scalar_div_s",
    "C59_rounding",
    "C59_parse",
    "C59_to_str_unsigned",
    "C59_to_str_signed",
    "C59_format",
    "C59_conversions",
    "C59_to_str_refuted"
   ],
   "note": "Proved for every modelled operation except two, where only 'same value or panic' holds (refuted): writing a negative number with to_str_radix, and dividing a negative value by an unsigned wide scalar when the remainder is wrong."
  },
  {
   "property": "C60",
   "status": "partial",
   "theorems": [
    "C60_zero_partial",
    "C60_zero_over_zero",
    "C60_min_over_m1",
    "C60_documented_refuted"
   ],
   "note": "False of the code (refuted): div_floor and div_ceil return MIN for MIN / -1 in every build, div_euclid and rem_euclid do without overflow checks, and 0 / 0 returns 1. A zero divisor under a nonzero dividend panics in every build; the exact results of the other cases are proved."
  },
  {
   "property": "C61",
   "status": "proved",
   "theorems": [
    "C61_by_unsigned",
    "C61_by_signed",
    "C61_checked_zero",
    "C61_projections"
   ],
   "note": "The exactness condition of the divider is part of the statement (C50 decides it; always met by limb-sized scalars). Projections and None cases are unconditional."
  },
  {
   "property": "C62",
   "status": "proved",
   "theorems": [
    "C62_forms",
    "C62_forms_overflow",
    "C62_run_exact",
    "C62_run_wrapping",
    "C62_run_checked",
    "C62_shift_forms",
    "C62_shift_forms_panic",
    "C62_shift_big_forms",
    "C62_unary_forms",
    "C62_default",
    "C62_from",
    "C62_debug"
   ],
   "note": "Division inside the forms is stated under the exactness condition of C08; the four forms agree unconditionally."
  },
  {
   "property": "C63",
   "status": "partial",
   "theorems": [
    "C63_value",
    "C63_checked",
    "C63_neg",
    "C63_shift",
    "C63_pow",
    "C63_euclid",
    "C63_mul_add_assign",
    "C63_parse_unsigned",
    "C63_parse_signed",
    "C63_errors",
    "C63_bounds"
   ],
   "note": "Signed saturating_mul and checked_mul share the undetected window of C06 (refuted there); Euclidean division is stated under the exactness condition of C12. Everything else as stated. C77 decides the products in every case, C76 the divisions."
  },
  {
   "property": "C64",
   "status": "partial",
   "theorems": [
    "C64_scalar_unsigned",
    "C64_scalar_signed_partial",
    "C64_scalar_div_partial",
    "C64_scalar_div_32",
    "C64_scalar_wide_refuted",
    "C64_scalar_mul_refuted",
    "C64_scalar_div_refuted",
    "C64_scalar_rem_refuted",
    "C64_parse_unsigned",
    "C64_parse_signed_partial",
    "C64_parse_in_range",
    "C64_parse_refuted",
    "C64_lower_unique",
    "C64_to_str",
    "C64_display",
    "C64_exp",
    "C64_to_bytes",
    "C64_from_bytes",
    "C64_division_u_partial",
    "C64_division_s_partial"
   ],
   "note": "Text output and byte and word arrays: proved without exception. Unsigned scalar operations, unsigned parsing and division by 32-bit scalars: proved. False of the code (refuted) for signed 128-bit scalars, signed scalar multiplication overflow, negative numerals in the window of C27, and divisions needing a correction; each is proved outside its exception."
  },
  {
   "property": "C65",
   "status": "proved",
   "theorems": [
    "C65_neg",
    "C65_pow",
    "C65_shift",
    "C65_shift_operators",
    "C65_div",
    "C65_rounding",
    "C65_multiples",
    "C65_ilog",
    "C65_scalar_div_u",
    "C65_scalar_div_s",
    "C65_to_str",
    "C65_format",
    "C65_parse",
    "C65_array_shift",
    "C65_word",
    "C65_word_refuted"
   ],
   "note": "Includes where the conditions of the inner routines called directly would matter (array shifts, one-word division)."
  },
  {
   "property": "C66",
   "status": "proved",
   "theorems": [
    "C66_add",
    "C66_sub",
    "C66_mul_word",
    "C66_mul",
    "C66_sub_add"
   ],
   "note": "The client loops are defined in PropsProg.v and call only modelled operations."
  },
  {
   "property": "C67",
   "status": "partial",
   "theorems": [
    "C67_wrapping",
    "C67_sign_blind",
    "C67_identities",
    "C67_operators",
    "C67_operators_exact",
    "C67_operators_refuted",
    "C67_release",
    "C67_checked"
   ],
   "note": "Proved for unsigned types and for signed expressions without products. For signed products with checks the 'only if' fails (refuted: the undetected window of C06); the 'if' direction is proved for all expressions. C77 decides the operators on every product."
  },
  {
   "property": "C68",
   "status": "partial",
   "theorems": [
    "C68_pairs",
    "C68_amounts",
    "C68_bits",
    "C68_singles",
    "C68_high_mul",
    "C68_scalars",
    "C68_scalar_division",
    "C68_limb_division",
    "C68_scalar_division_refuted",
    "C68_products",
    "C68_powers",
    "C68_products_refuted",
    "C68_powers_refuted",
    "C68_division_partial",
    "C68_quotients",
    "C68_remainders",
    "C68_division_refuted",
    "C68_remainder_refuted"
   ],
   "note": "Proved for every test except signed products and powers (decided exactly; false in the missed overflow window), two-limb scalar division (decided exactly; panics) and 256-bit division (quotient tests decided exactly; remainder tests characterised by exact_division)."
  },
  {
   "property": "C69",
   "status": "partial",
   "theorems": [
    "C69_add_sub",
    "C69_add_sub_short",
    "C69_add_sub_scalar",
    "C69_signed_scalar",
    "C69_signed_scalar_flag",
    "C69_signed_scalar_flag_refuted",
    "C69_mul",
    "C69_mul_scalar",
    "C69_mul_signed",
    "C69_mul_signed_refuted",
    "C69_widening",
    "C69_negate",
    "C69_shift",
    "C69_rotate",
    "C69_div",
    "C69_div_one",
    "C69_div_two",
    "C69_div_exact_partial",
    "C69_div_exact_refuted",
    "C69_div_limb",
    "C69_div_wide",
    "C69_too_short",
    "C69_lengths"
   ],
   "note": "Proved for every function except the signed product flags and the wide unsigned scalar flag on two-limb signed arrays (decided exactly; refuted) and division with a correction step (outcome decided; refuted as exact)."
  },
  {
   "property": "C70",
   "status": "proved",
   "theorems": [
    "C70_native",
    "C70_native_mul",
    "C70_native_mul_refuted",
    "C70_div",
    "C70_count"
   ],
   "note": "Decided for all 37 tests; the three signed overflowing product tests are false in the stated window (witness in the _refuted theorem)."
  },
  {
   "property": "C71",
   "status": "proved",
   "theorems": [
    "C71_shl",
    "C71_shr",
    "C71_shr_refuted",
    "C71_mul",
    "C71_narrow",
    "C71_counts",
    "C71_counts_words",
    "C71_mulhi",
    "C71_mulhi_refuted",
    "C71_divide",
    "C71_magic",
    "C71_divide_refuted"
   ],
   "note": "The wrong high product and the division built on it are given by exact values; the _refuted theorems are the witnesses."
  },
  {
   "property": "C72",
   "status": "proved",
   "theorems": [
    "C72_halves",
    "C72_rejects",
    "C72_branched_outcome",
    "C72_branched_divides",
    "C72_top",
    "C72_size_refuted",
    "C72_branchfree_outcome",
    "C72_branchfree_pow",
    "C72_branchfree_value",
    "C72_branchfree_refuted",
    "C72_remainder",
    "C72_multiplier",
    "C72_multiplier_size",
    "C72_multiplier_refuted",
    "C72_fast_shift",
    "C72_factors",
    "C72_high",
    "C72_divrem",
    "C72_divrem_refuted"
   ],
   "note": "The wrong parts are given by exact values; the _refuted theorems are the witnesses."
  },
  {
   "property": "C73",
   "status": "proved",
   "theorems": [
    "C73_carry",
    "C73_product",
    "C73_signed_carry",
    "C73_signed_borrow",
    "C73_hash",
    "C73_forwards",
    "C73_bytes",
    "C73_as_from"
   ],
   "note": "The hasher itself is not modelled, only what it is given."
  },
  {
   "property": "C74",
   "status": "proved",
   "theorems": [
    "C74_step",
    "C74_count",
    "C74_two_limbs",
    "C74_exact",
    "C74_wrong_needs_unsafe"
   ],
   "note": "Which division steps need a correction, a bound on their number, and exactness when there is none."
  },
  {
   "property": "C75",
   "status": "proved",
   "theorems": [
    "C75_block",
    "C75_word",
    "C75_arrays",
    "C75_public"
   ],
   "note": "Instruction-level model of the asm block; the callers are restated over the word division they use."
  },
  {
   "property": "C76",
   "status": "proved",
   "theorems": [
    "C76_quotient",
    "C76_remainder",
    "C76_euclid_quotient",
    "C76_euclid_remainder",
    "C76_floor",
    "C76_ceil",
    "C76_is_multiple_of",
    "C76_next_multiple"
   ],
   "note": "Both directions for every form: when the answer is right, and the panic or the size of the error otherwise."
  },
  {
   "property": "C77",
   "status": "proved",
   "theorems": [
    "C77_mul",
    "C77_pow",
    "C77_scalar",
    "C77_mul_add",
    "C77_sign",
    "C77_same_sign",
    "C77_operators",
    "C77_checked"
   ],
   "note": "Decided in every case; the rule itself is the deviation refuted in C06."
  },
  {
   "property": "C78",
   "status": "proved",
   "theorems": [
    "C78_unsigned",
    "C78_signed_by_signed",
    "C78_signed_by_unsigned"
   ],
   "note": "Both directions for every form; the deviations are those refuted in C50."
  },
  {
   "property": "C79",
   "status": "proved",
   "theorems": [
    "C79_minus_value",
    "C79_minus_invalid",
    "C79_minus_overflow",
    "C79_minus_positive",
    "C79_every_radix",
    "C79_plain",
    "C79_from_str",
    "C79_ilog_unsigned",
    "C79_ilog_signed",
    "C79_ilog_one"
   ],
   "note": "Every outcome decided; the deviations are those refuted in C27, C28, C51 and C34."
  },
  {
   "property": "C80",
   "status": "proved",
   "theorems": [
    "C80_boolean_algebra",
    "C80_complement",
    "C80_shl_shl",
    "C80_shr_shr",
    "C80_shift_back",
    "C80_shift_bitwise",
    "C80_rotations",
    "C80_rotation_amount",
    "C80_rotation_shifts",
    "C80_rotation_bitwise",
    "C80_add_bits",
    "C80_neg_bits",
    "C80_lowest_bit",
    "C80_counts",
    "C80_counts_moved",
    "C80_power_of_two_count",
    "C80_runs",
    "C80_trailing_zeros_count",
    "C80_reversal"
   ],
   "note": "19 laws over sequences of calls, derived from C15 to C20 and C37."
  },
  {
   "property": "C81",
   "status": "proved",
   "theorems": [
    "C81_bytes_lexicographic",
    "C81_signed_flip",
    "C81_total_order",
    "C81_unsigned_tests",
    "C81_signed_tests",
    "C81_abs_diff",
    "C81_triangle",
    "C81_midpoint",
    "C81_sign_magnitude",
    "C81_saturating_monotone"
   ],
   "note": "10 laws relating comparison, bytes, overflow flags, distance, midpoint and saturation."
  },
  {
   "property": "C82",
   "status": "proved",
   "theorems": [
    "C82_same_digits",
    "C82_case",
    "C82_zeros",
    "C82_minus",
    "C82_from_str_zeros",
    "C82_from_str_length_refuted",
    "C82_digit_count",
    "C82_numeral_order"
   ],
   "note": "All byte strings; FromStr's length-dependent error kind is refuted with a witness (C82_from_str_length_refuted)."
  },
  {
   "property": "C83",
   "status": "proved",
   "theorems": [
    "C83_first",
    "C83_below",
    "C83_at",
    "C83_always",
    "C83_short",
    "C83_ten",
    "C83_scalar",
    "C83_power_of_two_unsigned",
    "C83_power_of_two_signed",
    "C83_multiple_of_two"
   ],
   "note": "Every divisor decided; C83_ex1 evaluates the model at 10^32, where the remainder of the numerator named by the formula is wrong and its predecessor's right."
  },
  {
   "property": "C84",
   "status": "proved",
   "theorems": [
    "C84_same_code",
    "C84_division",
    "C84_pairs",
    "C84_zero",
    "C84_min_over_m1",
    "C84_rounding",
    "C84_multiples",
    "C84_ilog",
    "C84_scalar_u",
    "C84_scalar_i"
   ],
   "note": "About the corrected routines of MFix.v, not the code. C84_same_code shows by conversion that the callers are the published ones."
  },
  {
   "property": "C85",
   "status": "proved",
   "theorems": [
    "C85_same_code",
    "C85_same_code_scalar",
    "C85_same_code_text",
    "C85_mul",
    "C85_pow",
    "C85_mul_add",
    "C85_scalar_u",
    "C85_scalar_i",
    "C85_parse",
    "C85_from_str",
    "C85_parse_errors",
    "C85_agree"
   ],
   "note": "About the corrected routines of MFix2.v, not the code. C85_same_code, _scalar and _text show that the callers are the published ones."
  },
  {
   "property": "C86",
   "status": "proved",
   "theorems": [
    "C86_shift_primitive",
    "C86_shift_self",
    "C86_unbounded_shr",
    "C86_carry",
    "C86_midpoint",
    "C86_abs",
    "C86_rounding",
    "C86_try_from",
    "C86_is_positive",
    "C86_to_str_radix",
    "C86_round_trip",
    "C86_display",
    "C86_radix_formats",
    "C86_exponent"
   ],
   "note": "About the corrected routines of MFix3.v, not the code. Finding 17 (NumCast beyond 128 bits) has no local correction: the trait offers no wider method."
  },
  {
   "property": "C87",
   "status": "proved",
   "theorems": [
    "C87_corrected",
    "C87_decided",
    "C87_published",
    "C87_list",
    "C87_plain",
    "C87_limb_size",
    "C87_fuel"
   ],
   "note": "about programs run with the published operations and with the corrected ones (MFix.v, MFix2.v, MFix3.v); the language is not part of /repo"
  },
  {
   "property": "C88",
   "status": "proved",
   "theorems": [
    "C88_order",
    "C88_max_min",
    "C88_clamp"
   ],
   "note": "max, min and clamp follow the default methods of core::cmp, which are not part of /repo"
  },
  {
   "property": "C89",
   "status": "proved",
   "theorems": [
    "C89_data",
    "C89_anything",
    "C89_unsigned_only",
    "C89_operand",
    "C89_simple_signed",
    "C89_negative_simple_refuted"
   ],
   "note": "The signed simple strategy gives no negative operands (C89_negative_simple_refuted; finding 28). A generator is any sequence of numbers."
  },
  {
   "property": "C90",
   "status": "partial",
   "theorems": [
    "C90_run",
    "C90_run_bits",
    "C90_division",
    "C90_simple",
    "C90_division_refuted",
    "C90_large_quotient",
    "C90_assembly",
    "C90_signed_name_refuted"
   ],
   "note": "False of division with uniform and large data: C90_division_refuted gives, for every positive count, a generator that makes it panic; C90_division decides it exactly and C90_simple proves the rest. Everything else holds. overflowing_mul_signed_i256 takes unsigned numbers (C90_signed_name_refuted)."
  },
  {
   "property": "C91",
   "status": "proved",
   "theorems": [
    "C91_remainder",
    "C91_quotient",
    "C91_attained"
   ],
   "note": "Counts the failures of C76; the divisions themselves are covered there."
  },
  {
   "property": "C92",
   "status": "proved",
   "theorems": [
    "C92_one_factor",
    "C92_pairs",
    "C92_attained"
   ],
   "note": "Counts the cases of C06 and C77."
  },
  {
   "property": "C93",
   "status": "proved",
   "theorems": [
    "C93_unsigned",
    "C93_signed_by_signed",
    "C93_signed_by_unsigned",
    "C93_narrow"
   ],
   "note": "Counts the failures of C78."
  },
  {
   "property": "C94",
   "status": "proved",
   "theorems": [
    "C94_comparisons",
    "C94_scalar_comparisons",
    "C94_one",
    "C94_amount",
    "C94_two",
    "C94_division",
    "C94_blind",
    "C94_small_divisors",
    "C94_blind_refuted",
    "C94_scalar",
    "C94_guard"
   ],
   "note": "Stated for an arbitrary implementation; C94_blind_refuted exhibits a wrong division with the verdicts of the crate's own."
  },
  {
   "property": "C95",
   "status": "proved",
   "theorems": [
    "C95_same",
    "C95_product",
    "C95_checked",
    "C95_scalar",
    "C95_docs",
    "C95_docs_refuted",
    "C95_docs_never",
    "C95_pow",
    "C95_limb_division",
    "C95_division",
    "C95_worst"
   ],
   "note": "Counts are of the limb products and divisions the source asks for, not of machine instructions. The documented counts of ten and four products hold for every operand; those of int/limb.rs 520, 1256, 1269, 1367 and 1380 are too low (C95_docs_refuted)."
  },
  {
   "property": "C96",
   "status": "partial",
   "theorems": [
    "C96_printed",
    "C96_accurate",
    "C96_nearest",
    "C96_range",
    "C96_order",
    "C96_thousand_refuted",
    "C96_thousand_units_refuted",
    "C96_thousand_iff",
    "C96_negative"
   ],
   "note": "Everything proved except that the number shown is below 1000, which is false (C96_thousand_refuted); C96_thousand_iff says exactly when for nanoseconds."
  },
  {
   "property": "C97",
   "status": "proved",
   "theorems": [
    "C97_target",
    "C97_no_target",
    "C97_all_or_nothing",
    "C97_message",
    "C97_columns",
    "C97_line",
    "C97_width",
    "C97_width_refuted"
   ],
   "note": "The width is in bytes: C97_width_refuted shows a column further right than any title needs; C97_width that this needs a title outside ASCII."
  },
  {
   "property": "C98",
   "status": "partial",
   "theorems": [
    "C98_add_full",
    "C98_add_full_flag",
    "C98_add_limb",
    "C98_add_limb_flag",
    "C98_sadd_full",
    "C98_sadd_full_flag",
    "C98_sadd_ulimb",
    "C98_sadd_ulimb_flag",
    "C98_sub_full",
    "C98_sub_full_flag",
    "C98_sub_limb",
    "C98_sub_limb_flag",
    "C98_ssub_full",
    "C98_ssub_full_flag",
    "C98_ssub_ulimb",
    "C98_ssub_ulimb_flag",
    "C98_ssub_ilimb_flag",
    "C98_sadd_ilimb_exact",
    "C98_sadd_ilimb_flag_exact",
    "C98_ssub_ilimb_exact",
    "C98_rotate",
    "C98_fix_sadd_ilimb",
    "C98_fix_sadd_ilimb_flag",
    "C98_fix_ssub_ilimb",
    "C98_counts",
    "C98_ilimb_refuted"
   ],
   "note": "false for three listings, which are right exactly for non-negative limbs (C98_*_exact, C98_ilimb_refuted); corrected listings proved"
  },
  {
   "property": "C99",
   "status": "partial",
   "theorems": [
    "C99_stripped_exact",
    "C99_mask_exact",
    "C99_widths",
    "C99_mask_refuted"
   ],
   "note": "false for widths that are not powers of two (384): C99_mask_exact and C99_stripped_exact say exactly when it holds, C99_mask_refuted is a counterexample"
  },
  {
   "property": "C100",
   "status": "proved",
   "theorems": [
    "C100_reading",
    "C100_number_text",
    "C100_corrected",
    "C100_decided",
    "C100_published",
    "C100_list",
    "C100_plain",
    "C100_limb_size",
    "C100_echo",
    "C100_fuel"
   ],
   "note": "C100_corrected, C100_decided: the corrected code meets the meaning of every program, and none is left out. C100_published, C100_list: the published code, with an exact list of exceptions. C100_plain: programs without condition. C100_limb_size, C100_echo, C100_fuel."
  },
  {
   "property": "C101",
   "status": "partial",
   "theorems": [
    "C101_shortest",
    "C101_width",
    "C101_agrees",
    "C101_plain",
    "C101_zero_hex",
    "C101_corrected",
    "C101_zero_refuted",
    "C101_left_refuted",
    "C101_plus_refuted",
    "C101_trailing_refuted"
   ],
   "note": "Printing as the primitive types do is false for many flags (C101_zero_refuted, C101_left_refuted, C101_plus_refuted, C101_trailing_refuted). C101_agrees is the exact condition, C101_plain the case without flags, C101_zero_hex the zero flag, C101_corrected a correction that always agrees."
  },
  {
   "property": "C102",
   "status": "proved",
   "theorems": [
    "C102_same",
    "C102_places",
    "C102_write",
    "C102_write_small",
    "C102_write_mono",
    "C102_display",
    "C102_display_256",
    "C102_read",
    "C102_read_numeral",
    "C102_read_overflow",
    "C102_read_bound",
    "C102_short",
    "C102_long"
   ],
   "note": "Writing is stated for values that are not negative: negative signed values are never written (C29). When a negative signed numeral gets too large, the number of digits read is bounded, not given; otherwise C102_read_overflow gives it."
  },
  {
   "property": "C103",
   "status": "partial",
   "theorems": [
    "C103_outcome",
    "C103_right_256",
    "C103_agrees_ilog",
    "C103_wide_refuted",
    "C103_corrected",
    "C103_signed"
   ],
   "note": "Proved for 256 bits, with the exact outcome at every width (C103_outcome). False above 256 bits (C103_wide_refuted); C103_corrected is a corrected test."
  },
  {
   "property": "C104",
   "status": "proved",
   "theorems": [
    "C104_script",
    "C104_same_code",
    "C104_operators",
    "C104_shifts",
    "C104_scalars",
    "C104_callers",
    "C104_division_by_scalar",
    "C104_to_str",
    "C104_own_refuted"
   ],
   "note": "C104_own_refuted shows the two forms that follow the crate's own setting."
  },
  {
   "property": "C105",
   "status": "partial",
   "theorems": [
    "C105_add_sub",
    "C105_mul_unsigned",
    "C105_mul_signed",
    "C105_mul_signed_refuted",
    "C105_shifts",
    "C105_neg",
    "C105_no_panic",
    "C105_model",
    "C105_guards",
    "C105_transmutes",
    "C105_widths"
   ],
   "note": "Proved, but for signed unchecked_mul 'undefined exactly when' is false of the products the overflow flag misses, which are returned wrapped (C105_mul_signed_refuted); C105_mul_signed decides it. The safe direction holds without exception."
  },
  {
   "property": "C106",
   "status": "proved",
   "theorems": [
    "C106_get_limb",
    "C106_get_limb_signed",
    "C106_ends",
    "C106_rebuild",
    "C106_shift",
    "C106_strict_neg"
   ],
   "note": "Complete."
  },
  {
   "property": "C107",
   "status": "proved",
   "theorems": [
    "C107_same",
    "C107_pow",
    "C107_pow_bound",
    "C107_log",
    "C107_passes",
    "C107_log_limb",
    "C107_log_signed",
    "C107_once"
   ],
   "note": "Complete. Base one, where the loop does not stop, is C79."
  },
  {
   "property": "C108",
   "status": "proved",
   "theorems": [
    "C108_division",
    "C108_documented",
    "C108_undocumented",
    "C108_next_multiple_u",
    "C108_next_multiple_s",
    "C108_strict",
    "C108_strict_products",
    "C108_shifts_logs",
    "C108_ilog_u",
    "C108_ilog_s",
    "C108_scalar_zero",
    "C108_scalar",
    "C108_to_str_radix",
    "C108_to_str_radix_exact",
    "C108_zero_refuted",
    "C108_min_refuted",
    "C108_div_rem_refuted",
    "C108_strict_refuted",
    "C108_buffer_refuted"
   ],
   "note": "Complete for the documented methods of the numbers (not the internal math::div::full). Where the code differs from its documentation: the _refuted theorems. from_str_radix is C28_panic, the unsafe methods C105."
  },
  {
   "property": "C109",
   "status": "proved",
   "theorems": [
    "C109_both",
    "C109_unsigned",
    "C109_signed",
    "C109_stopping",
    "C109_scalar_u",
    "C109_scalar_i",
    "C109_casts",
    "C109_froms",
    "C109_counts",
    "C109_layout"
   ],
   "note": "when the methods of the last catalogue panic is C108; the signed 128-bit scalars on 32-bit limbs are excepted because they panic (C43)"
  },
  {
   "property": "C110",
   "status": "proved",
   "theorems": [
    "C110_same_code",
    "C110_add_sub",
    "C110_bits",
    "C110_mul",
    "C110_shift",
    "C110_shr_sign_refuted",
    "C110_checked",
    "C110_eq_reads_all",
    "C110_eq_stops",
    "C110_eq_non_short_circuiting_refuted",
    "C110_order_stops",
    "C110_order_non_short_circuiting_refuted",
    "C110_zeros",
    "C110_positive",
    "C110_overflowing_mul_refuted"
   ],
   "note": "The comparisons documented as non-short-circuiting are not: C110_order_non_short_circuiting_refuted, C110_eq_non_short_circuiting_refuted. Division, scalar and signed overflowing products are not traced."
  },
  {
   "property": "C111",
   "status": "partial",
   "theorems": [
    "C111_text_add",
    "C111_text_sub",
    "C111_text_mul",
    "C111_text_widening",
    "C111_text_mul_signed",
    "C111_text_mul_signed_refuted",
    "C111_read",
    "C111_add_wrapping_unsigned",
    "C111_add_wrapping_limb",
    "C111_add_wrapping_wide",
    "C111_add_wrapping_mn",
    "C111_add_wrapping_signed",
    "C111_add_wrapping_ulimb",
    "C111_add_wrapping_ilimb",
    "C111_add_wrapping_uwide",
    "C111_add_wrapping_iwide",
    "C111_add_overflowing_unsigned",
    "C111_add_overflowing_limb",
    "C111_add_overflowing_wide",
    "C111_add_overflowing_mn",
    "C111_add_overflowing_signed",
    "C111_add_overflowing_ulimb",
    "C111_add_overflowing_ilimb",
    "C111_add_overflowing_uwide",
    "C111_add_overflowing_iwide",
    "C111_add_wrapping_scalar_u64",
    "C111_add_wrapping_uscalar_i64",
    "C111_add_wrapping_iscalar_i64",
    "C111_add_overflowing_scalar_u64",
    "C111_add_overflowing_uscalar_i64",
    "C111_add_overflowing_iscalar_i64",
    "C111_mul_wrapping_unsigned",
    "C111_mul_wrapping_limb",
    "C111_mul_wrapping_wide",
    "C111_mul_wrapping_signed",
    "C111_mul_wrapping_ulimb",
    "C111_mul_wrapping_ilimb",
    "C111_mul_wrapping_uwide",
    "C111_mul_wrapping_iwide",
    "C111_mul_overflowing_unsigned",
    "C111_mul_overflowing_limb",
    "C111_mul_overflowing_wide",
    "C111_mul_overflowing_signed",
    "C111_mul_overflowing_ulimb",
    "C111_mul_overflowing_ilimb",
    "C111_mul_overflowing_uwide",
    "C111_mul_overflowing_iwide",
    "C111_mul_widening",
    "C111_mul_wrapping_scalar_u64",
    "C111_mul_wrapping_uscalar_i64",
    "C111_mul_wrapping_iscalar_i64",
    "C111_mul_overflowing_scalar_u64",
    "C111_mul_overflowing_uscalar_i64",
    "C111_mul_overflowing_iscalar_i64",
    "C111_sub_wrapping_unsigned",
    "C111_sub_wrapping_limb",
    "C111_sub_wrapping_wide",
    "C111_sub_wrapping_mn",
    "C111_sub_wrapping_signed",
    "C111_sub_wrapping_ulimb",
    "C111_sub_wrapping_ilimb",
    "C111_sub_wrapping_uwide",
    "C111_sub_wrapping_iwide",
    "C111_sub_overflowing_unsigned",
    "C111_sub_overflowing_limb",
    "C111_sub_overflowing_wide",
    "C111_sub_overflowing_mn",
    "C111_sub_overflowing_signed",
    "C111_sub_overflowing_ulimb",
    "C111_sub_overflowing_ilimb",
    "C111_sub_overflowing_uwide",
    "C111_sub_overflowing_iwide",
    "C111_sub_wrapping_scalar_u64",
    "C111_sub_wrapping_uscalar_i64",
    "C111_sub_wrapping_iscalar_i64",
    "C111_sub_overflowing_scalar_u64",
    "C111_sub_overflowing_uscalar_i64",
    "C111_sub_overflowing_iscalar_i64"
   ],
   "note": "The text of add, sub and mul runs as the model does for every length and input; the claim that the overflowing signed product of the text flags every overflow is refuted by a run of the text (C111_text_mul_signed_refuted). Fuel for the evaluator and lengths below 2^31 are hypotheses; little-endian machine."
  },
  {
   "property": "C112",
   "status": "proved",
   "theorems": [
    "C112_left",
    "C112_right",
    "C112_rotate_left",
    "C112_rotate_right",
    "C112_left_wide",
    "C112_right_wide",
    "C112_rotate_wide",
    "C112_text_shift",
    "C112_text_rotate",
    "C112_text_refused",
    "C112_read"
   ],
   "note": "Fuel for the evaluator and fewer than 2^32 bits in all are hypotheses; little-endian machine."
  }
 ]
}
