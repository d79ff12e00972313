{
 "claims": [
  {
   "property": "C01",
   "status": "proved",
   "theorems": [
    "C01_element_add_exact",
    "C01_bitwise_add_exact",
    "C01_bitwise_add_length"
   ],
   "note": "ElementAdd::add returns an exact, canonical (shrunk) sum; BitwiseAdd::add returns an exact sum; every limb width and pair of lengths."
  },
  {
   "property": "C02",
   "status": "proved",
   "theorems": [
    "C02_add_overflowing",
    "C02_add_overflowing_longer"
   ],
   "note": "Also covers longer right operands: there the flag is about the longer length (C02_add_overflowing_longer)."
  },
  {
   "property": "C03",
   "status": "partial",
   "theorems": [
    "C03_sub_partial",
    "C03_sub_refuted"
   ],
   "note": "False as stated: C03_sub_refuted ([0]-[2] gives magnitude 0). C03_sub_partial gives the exact result for all inputs: sign right, magnitude two too small on a borrow with an even difference."
  },
  {
   "property": "C04",
   "status": "proved",
   "theorems": [
    "C04_sub_overflowing"
   ],
   "note": ""
  },
  {
   "property": "C05",
   "status": "proved",
   "theorems": [
    "C05_mul_exact"
   ],
   "note": "Element version needs one non-empty operand (two empty slices make shrink panic)."
  },
  {
   "property": "C06",
   "status": "proved",
   "theorems": [
    "C06_mul_wrapping"
   ],
   "note": ""
  },
  {
   "property": "C07",
   "status": "partial",
   "theorems": [
    "C07_mul_flag_partial",
    "C07_mul_flag_refuted",
    "C07_flag_exact_partial",
    "C07_one_limb_silent_partial"
   ],
   "note": "False as stated: C07_mul_flag_refuted (u8 16*16 reports no overflow). Proved: a reported overflow is real, and products that fit are returned by mul_checked; the exact condition for a report (C07_flag_exact_partial)."
  },
  {
   "property": "C08",
   "status": "proved",
   "theorems": [
    "C08_shl_exact"
   ],
   "note": ""
  },
  {
   "property": "C09",
   "status": "proved",
   "theorems": [
    "C09_shl_checked"
   ],
   "note": ""
  },
  {
   "property": "C10",
   "status": "partial",
   "theorems": [
    "C10_shl_wrapping_partial",
    "C10_shl_wrapping_small_partial",
    "C10_shl_wrapping_refuted",
    "C10_empty_partial"
   ],
   "note": "False as stated: C10_shl_wrapping_refuted (3 u8 limbs, shift 16 does nothing). Proved: the amount is reduced modulo 2^floor(log2(bits)), hence the claim for amounts below that."
  },
  {
   "property": "C11",
   "status": "partial",
   "theorems": [
    "C11_bitwise_shr_exact",
    "C11_element_shr_partial",
    "C11_element_shr_refuted"
   ],
   "note": "BitwiseShr and release ElementShr proved for all inputs; the debug build of ElementShr panics for every amount >= the limb width (C11_element_shr_refuted, exact case split in C11_element_shr_partial)."
  },
  {
   "property": "C12",
   "status": "partial",
   "theorems": [
    "C12_shr_checked_partial",
    "C12_shr_wrapping_partial",
    "C12_kept_bits_zero",
    "C12_shr_refuted",
    "C12_shr_full_width",
    "C12_empty_partial"
   ],
   "note": "False as stated: C12_shr_refuted ([128]>>1 = [192]). Proved: the exact result for all inputs (quotient plus the kept top bits), and exactly when the extra term is zero (C12_kept_bits_zero); at the full width the debug build panics."
  },
  {
   "property": "C13",
   "status": "proved",
   "theorems": [
    "C13_bitops",
    "C13_not"
   ],
   "note": ""
  },
  {
   "property": "C14",
   "status": "partial",
   "theorems": [
    "C14_cmp_partial",
    "C14_cmp_small_partial",
    "C14_cmp_exact_partial",
    "C14_cmp_refuted"
   ],
   "note": "False as stated: C14_cmp_refuted ([1,0] > [0,1]). Proved: order of the least significant differing limb; numeric when at most one limb differs or both are below 2^B."
  },
  {
   "property": "C15",
   "status": "proved",
   "theorems": [
    "C15_cmp_total_order"
   ],
   "note": ""
  },
  {
   "property": "C16",
   "status": "partial",
   "theorems": [
    "C16_bitwise_div_partial",
    "C16_bitwise_div_zero",
    "C16_bitwise_div_longer_panics",
    "C16_bitwise_div_refuted",
    "C16_congruence_partial",
    "C16_exact_partial",
    "C16_one_limb_partial",
    "C16_leading_partial",
    "C16_divisors_partial"
   ],
   "note": "False as stated: C16_bitwise_div_refuted. Proved for divisors <= 2^(B-1), and for dividend and divisor below 2^B, divisor not longer than dividend; also exact behaviour for divisor 0 and the panic for longer divisors. C16_congruence_partial: for every divisor not longer than the dividend all seven entry points agree, none panics, and q*b + r = a modulo the width; what fails is r < b. C16_exact_partial: the quotient is right if and only if at every step the comparison by the lowest differing limb agrees with the order of the numbers; C16_one_limb_partial: for a divisor of one limb, if and only if no partial dividend reaches 2^B. C16_divisors_partial: with two or more limbs the divisors that are right for every dividend are exactly those up to 2^(B-1) and the greatest number of the width. C16_leading_partial: with a divisor of 2^B or more the quotient is wrong whenever the B leading bits of the dividend exceed the lowest limb of the divisor, and for a dividend of one limb exactly then."
  },
  {
   "property": "C17",
   "status": "partial",
   "theorems": [
    "C17_element_div_partial",
    "C17_element_div_refuted",
    "C17_element_div_zero_diverges",
    "C17_element_div_empty_partial",
    "C17_congruence_partial",
    "C17_longer_divisor_panics",
    "C17_terminates_partial",
    "C17_one_limb_divisor_partial",
    "C17_digits_partial",
    "C17_wrong_partial"
   ],
   "note": "False as stated: wrong results and a non-terminating input (all fuel). Proved for one-limb operands; divisor 0 never terminates; for all operands, whenever the loops end the answer is right modulo the width with the remainder below the divisor in the limb order of the crate; a longer divisor panics, and so do two empty slices. C17_terminates_partial: the division ends if and only if the lowest limb of the divisor is not 0 (or the dividend is 0 and the divisor is not); C17_one_limb_divisor_partial: a one-limb divisor divides limb by limb, right if and only if it divides every limb but the lowest. C17_digits_partial: the exact result for every divisor whose lowest limb is not 0: each digit of the quotient is the limb of the dividend divided by the lowest limb of the divisor, or one less in one described case; the remainder follows modulo the width. C17_wrong_partial: so the quotient by a divisor of j + 1 or more limbs is wrong if one of the j highest limbs of the dividend exceeds the lowest limb of the divisor, and 0 if all limbs are below it."
  },
  {
   "property": "C18",
   "status": "proved",
   "theorems": [
    "C18_bit_access"
   ],
   "note": ""
  },
  {
   "property": "C19",
   "status": "partial",
   "theorems": [
    "C19_set_bit_push",
    "C19_set_push_partial",
    "C19_set_push_beyond",
    "C19_set_push_refuted"
   ],
   "note": "set_bit_push proved in full; set_push stores only inside the length (C19_set_push_refuted, C19_set_push_beyond)."
  },
  {
   "property": "C20",
   "status": "proved",
   "theorems": [
    "C20_shrink",
    "C20_shrink_canonical",
    "C20_empty"
   ],
   "note": ""
  },
  {
   "property": "C21",
   "status": "proved",
   "theorems": [
    "C21_iter_bits"
   ],
   "note": ""
  },
  {
   "property": "C22",
   "status": "partial",
   "theorems": [
    "C22_iter_len_partial",
    "C22_iter_len_refuted"
   ],
   "note": "False as stated: C22_iter_len_refuted. Proved: after k items the reported length is right iff k < B or the iterator is exhausted."
  },
  {
   "property": "C23",
   "status": "proved",
   "theorems": [
    "C23_int_to_arr",
    "C23_arr_to_int",
    "C23_arr_to_int_narrow",
    "C23_no_limbs"
   ],
   "note": ""
  },
  {
   "property": "C24",
   "status": "proved",
   "theorems": [
    "C24_widening_mul",
    "C24_widening_split"
   ],
   "note": ""
  },
  {
   "property": "C25",
   "status": "proved",
   "theorems": [
    "C25_bytes",
    "C25_prim_conversions"
   ],
   "note": "Also the inherent as_uN/from_uN conversions."
  },
  {
   "property": "C26",
   "status": "proved",
   "theorems": [
    "C26_add",
    "C26_sub"
   ],
   "note": ""
  },
  {
   "property": "C27",
   "status": "proved",
   "theorems": [
    "C27_mul"
   ],
   "note": ""
  },
  {
   "property": "C28",
   "status": "partial",
   "theorems": [
    "C28_flag_exact_partial",
    "C28_mul_overflow_partial",
    "C28_mul_overflow_refuted"
   ],
   "note": "False as stated (C28_mul_overflow_refuted): overflow beyond the top byte is not noticed, and U<1> never notices (second half of C28_mul_overflow_partial). Proved: a reported overflow is real, and the exact condition for a report (C28_flag_exact_partial)."
  },
  {
   "property": "C29",
   "status": "partial",
   "theorems": [
    "C29_congruence_partial",
    "C29_exact_partial",
    "C29_leading_partial",
    "C29_divisors_partial",
    "C29_div_partial",
    "C29_div_zero",
    "C29_div_refuted"
   ],
   "note": "False as stated (C29_div_refuted). Proved for divisors up to 128 and for dividends and divisors below 256 (all of U<1>); C29_div_zero: division by zero returns MAX, checked_div(0) = Some(MAX). C29_congruence_partial: for all operands no panic and q*b + r = a modulo the width. C29_exact_partial: the quotient is right if and only if the comparisons of the long division agree with the order of the numbers. C29_divisors_partial: for N >= 2 the divisors right for every dividend are exactly 1..128 and MAX. C29_leading_partial: with b >= 256 the quotient is wrong whenever the 8 leading bits of a exceed b mod 256 (for every nonzero a if b is a multiple of 256), and for a < 256 exactly then."
  },
  {
   "property": "C30",
   "status": "partial",
   "theorems": [
    "C30_shl_partial",
    "C30_shl_pow2",
    "C30_shr_partial",
    "C30_shifts_refuted",
    "C30_shift_by_u",
    "C30_release_partial"
   ],
   "note": "False as stated (C30_shifts_refuted). Proved: shl in debug builds for all amounts, in release builds for all N that are powers of two (C30_shl_pow2); shr up to the exactly described bits left behind (kept_bits); without overflow checks, for every amount, the amount is reduced modulo the greatest power of two not above 8N (C30_release_partial)."
  },
  {
   "property": "C31",
   "status": "partial",
   "theorems": [
    "C31_ord_partial",
    "C31_total_order_bounds",
    "C31_ord_refuted",
    "C31_exact_partial"
   ],
   "note": "False as stated (C31_ord_refuted): low byte first. Proved: exactly which pairs compare less - the lowest differing byte decides (C31_exact_partial) -, total order, bounds, numeric when one byte differs."
  },
  {
   "property": "C32",
   "status": "proved",
   "theorems": [
    "C32_bitops"
   ],
   "note": ""
  },
  {
   "property": "C33",
   "status": "partial",
   "theorems": [
    "C33_pow_partial",
    "C33_pow_wide_panics",
    "C33_pow_refuted",
    "C33_checked_partial",
    "C33_special_partial",
    "C33_checked_exact_partial"
   ],
   "note": "False at 0^0 (C33_pow_refuted) and for N > 8 (C33_pow_wide_panics). Proved for every other operand with 1 <= N <= 8, both builds; with overflow checks a power that does not fit panics or is reduced (C33_checked_partial), and C33_checked_exact_partial says exactly which powers panic: those where some multiplication on the way is reported as overflowing; the special cases at any N (C33_special_partial)."
  },
  {
   "property": "C34",
   "status": "partial",
   "theorems": [
    "C34_casts_partial",
    "C34_casts_wide_panic",
    "C34_from_prim_partial",
    "C34_casts_refuted"
   ],
   "note": "False as stated (C34_casts_refuted). Proved: exact when the U is no wider than the primitive, always a panic otherwise; U::from_checked reduces silently when narrower, panics when wider."
  },
  {
   "property": "C35",
   "status": "partial",
   "theorems": [
    "C35_display_partial",
    "C35_display_wide",
    "C35_display_refuted"
   ],
   "note": "False as stated (C35_display_refuted). Proved for U<1>; C35_display_wide gives the exact behaviour for N >= 2."
  },
  {
   "property": "C36",
   "status": "proved",
   "theorems": [
    "C36_ring",
    "C36_exact"
   ],
   "note": ""
  },
  {
   "property": "C37",
   "status": "partial",
   "theorems": [
    "C37_abs_partial",
    "C37_abs_refuted"
   ],
   "note": "False as stated (C37_abs_refuted): the top bit is cleared. Proved: identity on non-negative values and the exact result on negative ones."
  },
  {
   "property": "C38",
   "status": "partial",
   "theorems": [
    "C38_ord_partial",
    "C38_eq",
    "C38_ord_refuted",
    "C38_exact_partial",
    "C38_total_order"
   ],
   "note": "False as stated (C38_ord_refuted). Proved for opposite signs and for one differing byte; equality proved in full (C38_eq). C38_exact_partial says exactly which pairs compare less; C38_total_order that the order is lawful."
  },
  {
   "property": "C39",
   "status": "proved",
   "theorems": [
    "C39_bounds_signs"
   ],
   "note": ""
  },
  {
   "property": "C40",
   "status": "partial",
   "theorems": [
    "C40_congruence_partial",
    "C40_leading_partial",
    "C40_exact_partial",
    "C40_div_partial",
    "C40_div_refuted",
    "C40_rem_sign_refuted",
    "C40_signs_partial",
    "C40_divisors_partial"
   ],
   "note": "False as stated (C40_div_refuted, C40_rem_sign_refuted). Proved for non-negative operands with divisor at most 128 or dividend below 256. C40_congruence_partial: for all operands no panic and q*b + r = +-a modulo 2^(8N-1), the sign being that of a*b. C40_exact_partial: for a >= 0 and b > 0 the quotient is right if and only if the comparisons agree with the order of the numbers. C40_signs_partial: for all signs, the operands lose their sign bits and the quotient is that of the remaining bits with the sign of a*b, if and only if the comparisons agree. C40_divisors_partial: MIN / b is 0 for every b but 0 and MIN, division by 0 or MIN gives 1 or -1, and no divisor is right for all dividends. C40_leading_partial: for a >= 0 and b >= 256 the quotient is wrong whenever the 8 leading bits of a exceed b mod 256, and for a < 256 exactly then."
  },
  {
   "property": "C41",
   "status": "proved",
   "theorems": [
    "C41_from_exact"
   ],
   "note": "The == part excludes MIN of a signed type in a debug build (that comparison panics, see C56). Stores are those of C57 (consistent); at most 2^61 interned BigInts at a time."
  },
  {
   "property": "C42",
   "status": "proved",
   "theorems": [
    "C42_equality_is_value_equality",
    "C42_programs"
   ],
   "note": "Holds for every handle but a negated zero; C42_programs: no program without unary minus ever has one. Stores are those of C57 (consistent); at most 2^61 interned BigInts at a time."
  },
  {
   "property": "C43",
   "status": "partial",
   "theorems": [
    "C43_negation_denotes_partial",
    "C43_negated_zero_refuted"
   ],
   "note": "-a denotes -a for every a; -(0) == 0 is false (C43_negated_zero_refuted), and the negated zero also compares less than 0, fails u8::try_from and cannot be a shift amount. Stores are those of C57 (consistent); at most 2^61 interned BigInts at a time."
  },
  {
   "property": "C44",
   "status": "partial",
   "theorems": [
    "C44_add_sub_partial",
    "C44_add_sub_otherwise_partial",
    "C44_add_sub_refuted"
   ],
   "note": "False as stated (C44_add_sub_refuted: 3 + -5 = 0). Proved exact when the signs agree, |b| <= |a|, or the sum is odd; otherwise the result is off by exactly 2 towards zero (C44_add_sub_otherwise_partial). Stores are those of C57 (consistent); at most 2^61 interned BigInts at a time."
  },
  {
   "property": "C45",
   "status": "proved",
   "theorems": [
    "C45_mul_exact",
    "C45_owned_forms",
    "C45_mul_primitive"
   ],
   "note": "Reference, owned and primitive-operand forms. Stores are those of C57 (consistent); at most 2^61 interned BigInts at a time."
  },
  {
   "property": "C46",
   "status": "partial",
   "theorems": [
    "C46_div_rem_partial",
    "C46_longer_divisor_partial",
    "C46_zero_divisor_partial",
    "C46_div_rem_refuted",
    "C46_congruence_partial",
    "C46_exact_partial",
    "C46_leading_partial",
    "C46_divisors_partial"
   ],
   "note": "False as stated (C46_div_rem_refuted). Proved: quotient truncates and remainder is right up to its sign for |b| <= 2^63 or 64-bit operands; a divisor with more limbs panics; division by zero never panics. C46_congruence_partial: for every divisor with no more limbs (zero and multi-limb ones included) neither operator panics and |q||b| + |r| = |a| modulo the width of a. C46_exact_partial: the quotient is right if and only if the comparisons of the long division of the magnitudes agree with the order of the numbers. Not so: |r| < |b|. C46_divisors_partial: every divisor beyond 2^63 in magnitude has a dividend whose quotient is wrong. C46_leading_partial: with |b| >= 2^64 the quotient is wrong whenever the 64 leading bits of |a| exceed |b| mod 2^64, so for every nonzero a if b is a multiple of 2^64. Stores are those of C57 (consistent); at most 2^61 interned BigInts at a time."
  },
  {
   "property": "C47",
   "status": "partial",
   "theorems": [
    "C47_ordering_partial",
    "C47_ordering_refuted",
    "C47_equal_length_partial"
   ],
   "note": "False as stated (C47_ordering_refuted). Proved unless both magnitudes have the same number (>= 2) of 64-bit limbs and equal signs; in that case the lowest differing limb decides (C47_equal_length_partial). The order is a lawful total order all the same (C125). Stores are those of C57 (consistent); at most 2^61 interned BigInts at a time."
  },
  {
   "property": "C48",
   "status": "proved",
   "theorems": [
    "C48_to_unsigned"
   ],
   "note": "Stores are those of C57 (consistent); at most 2^61 interned BigInts at a time."
  },
  {
   "property": "C49",
   "status": "partial",
   "theorems": [
    "C49_to_signed_partial",
    "C49_negative_partial",
    "C49_to_signed_refuted",
    "C49_i128_partial",
    "C49_i128_refuted"
   ],
   "note": "False as stated (C49_to_signed_refuted). Proved for non-negative values of every type; up to 64 bits also the exact (wrong) answer for negative values and the rejection of values out of range. C49_i128_partial: the exact answer of i128 for every value; C49_i128_refuted: i128::MAX + 1 converts to Ok(i128::MIN). Stores are those of C57 (consistent); at most 2^61 interned BigInts at a time."
  },
  {
   "property": "C50",
   "status": "proved",
   "theorems": [
    "C50_left_shift"
   ],
   "note": "Stores are those of C57 (consistent); at most 2^61 interned BigInts at a time."
  },
  {
   "property": "C51",
   "status": "partial",
   "theorems": [
    "C51_right_shift_partial",
    "C51_right_shift_refuted",
    "C51_beyond_partial"
   ],
   "note": "Release builds: proved for every amount below 2^64; from 2^64 on, and for negative amounts, the shift panics (C51_beyond_partial). Debug builds: proved below 64; from 64 on the shift panics (C51_right_shift_refuted). Stores are those of C57 (consistent); at most 2^61 interned BigInts at a time."
  },
  {
   "property": "C52",
   "status": "proved",
   "theorems": [
    "C52_parsing"
   ],
   "note": "The empty string is the number 0. Stores are those of C57 (consistent); at most 2^61 interned BigInts at a time."
  },
  {
   "property": "C53",
   "status": "partial",
   "theorems": [
    "C53_printing_partial",
    "C53_negative_partial",
    "C53_printing_refuted"
   ],
   "note": "Non-negative values: proved. Every negative value prints -0 (C53_negative_partial, C53_printing_refuted). Stores are those of C57 (consistent); at most 2^61 interned BigInts at a time."
  },
  {
   "property": "C54",
   "status": "proved",
   "theorems": [
    "C54_round_trip"
   ],
   "note": "Stores are those of C57 (consistent); at most 2^61 interned BigInts at a time."
  },
  {
   "property": "C55",
   "status": "proved",
   "theorems": [
    "C55_pow"
   ],
   "note": "Operands by value, neither of them a negated zero. Stores are those of C57 (consistent); at most 2^61 interned BigInts at a time."
  },
  {
   "property": "C56",
   "status": "partial",
   "theorems": [
    "C56_eq_primitive_partial",
    "C56_eq_unsigned_partial",
    "C56_eq_primitive_refuted",
    "C56_least_partial"
   ],
   "note": "Proved for signed primitives (not MIN in debug builds) and for unsigned ones with a non-negative BigInt; the unsigned comparison ignores the sign (C56_eq_unsigned_partial, C56_eq_primitive_refuted); with MIN a debug build panics for every negative BigInt (C56_least_partial). Stores are those of C57 (consistent); at most 2^61 interned BigInts at a time."
  },
  {
   "property": "C57",
   "status": "proved",
   "theorems": [
    "C57_values_stable"
   ],
   "note": "Programs are sequences of the library calls of BigIntRun.v (25 kinds); a panic or non-terminating call ends the history."
  },
  {
   "property": "C58",
   "status": "proved",
   "theorems": [
    "C58_released_and_bounded"
   ],
   "note": ""
  },
  {
   "property": "C59",
   "status": "proved",
   "theorems": [
    "C59_interner_history",
    "C59_add_never_fails",
    "C59_full_count"
   ],
   "note": "Histories of any length in which no id ever has 2^64 - 1 references at once; the condition is needed, C59_full_count: at 2^64 references the count is 0 again in a release build and the value is lost. incr/decr on arbitrary ids allowed."
  },
  {
   "property": "C60",
   "status": "partial",
   "theorems": [
    "C60_first_match_partial",
    "C60_dedup_without_release_partial",
    "C60_dedup_refuted"
   ],
   "note": "False as stated (C60_dedup_refuted): a released smaller id is taken before the live copy is found. Proved: the exact id chosen (C60_first_match_partial), and deduplication when nothing was released."
  },
  {
   "property": "C61",
   "status": "proved",
   "theorems": [
    "C61_counts",
    "C61_condition",
    "C61_quiet_counts"
   ],
   "note": "Executions of any length in which no id ever has 2^64 - 1 references at once (the usize counts wrap), in particular all of fewer than 2^64 - 1 steps (C61_condition); any number of threads, any interleaving, handles shared between threads. List accesses of the interner are one step each, as justified by C63-C65."
  },
  {
   "property": "C62",
   "status": "partial",
   "theorems": [
    "C62_value_refuted",
    "C62_push_refuted",
    "C62_one_adder_partial",
    "C62_overlapping_partial",
    "C62_condition"
   ],
   "note": "False as stated: C62_value_refuted (two adds take the same free slot), C62_push_refuted (two adds that both append a chunk use the same slot). Proved for executions in which calls of add do not overlap each other, with any concurrent incr/decr/get (C62_one_adder_partial); and, more generally, when those that overlap another find their value in the interner, so that no call that takes or appends a slot overlaps another call of add (C62_overlapping_partial; C62_condition: it is the weaker condition)."
  },
  {
   "property": "C63",
   "status": "proved",
   "theorems": [
    "C63_pushes_all_there"
   ],
   "note": "Any number of threads, any programs, any schedule; one step per atomic access, sequentially consistent."
  },
  {
   "property": "C64",
   "status": "partial",
   "theorems": [
    "C64_length_refuted",
    "C64_bounds_partial",
    "C64_uncontended_partial"
   ],
   "note": "False as stated (C64_length_refuted). Proved: two-sided bound on the answer for every execution, exact when no other push returns during the call."
  },
  {
   "property": "C65",
   "status": "proved",
   "theorems": [
    "C65_get",
    "C65_iter",
    "C65_len"
   ],
   "note": "get, iteration, len and is_empty; any number of threads, any schedule."
  },
  {
   "property": "C66",
   "status": "proved",
   "theorems": [
    "C66_gcd"
   ],
   "note": "Fuel bound |a|+|b| stands for termination. The hypothesis excluding {MIN,-1} applies to signed types only (see C67)."
  },
  {
   "property": "C67",
   "status": "partial",
   "theorems": [
    "C67_gcd_signed_partial",
    "C67_gcd_nonneg_partial",
    "C67_gcd_nonpos_partial",
    "C67_gcd_mixed_partial",
    "C67_gcd_signed_refuted"
   ],
   "note": "False as stated: panics on {MIN,-1} and may return a negative gcd (C67_gcd_signed_refuted). Proved: the exact panic set, the right result for non-negative operands, minus the gcd for non-positive ones, and for operands of opposite signs the sign given by the parity of the number of divisions in Euclid's algorithm."
  },
  {
   "property": "C68",
   "status": "partial",
   "theorems": [
    "C68_saturate_partial",
    "C68_isize_truncates",
    "C68_saturate_refuted",
    "C68_coherent",
    "C68_ranges"
   ],
   "note": "False as stated: i16/i32::saturate_from(isize) truncate on wider pointers (C68_saturate_refuted), i8 from isize is missing. Proved for every other implemented pair on all three pointer widths; the excluded pairs are shown to be plain truncations."
  },
  {
   "property": "C69",
   "status": "proved",
   "theorems": [
    "C69_from_checked",
    "C69_truncate"
   ],
   "note": ""
  },
  {
   "property": "C70",
   "status": "partial",
   "theorems": [
    "C70_checked_shift_partial",
    "C70_checked_shift_folds",
    "C70_checked_shift_refuted"
   ],
   "note": "False as stated for 64/128-bit amounts: only the low 32 bits of the amount count (C70_checked_shift_refuted, C70_checked_shift_folds). Proved for all amounts in [-2^31, 2^32), hence for all types of at most 32 bits."
  },
  {
   "property": "C71",
   "status": "partial",
   "theorems": [
    "C71_pow_partial",
    "C71_pow_overflow_partial",
    "C71_pow_large_partial",
    "C71_pow_refuted"
   ],
   "note": "False as stated: 0^(2^32) = 1 for u64 (C71_pow_refuted). Proved for exponents below 2^32, including the overflow behaviour of both builds; for larger exponents C71_pow_large_partial says exactly what comes out: the right power except for base 0 and an exponent divisible by 2^32."
  },
  {
   "property": "C72",
   "status": "partial",
   "theorems": [
    "C72_wrapping_partial",
    "C72_wrapping_add_exact_partial",
    "C72_wrapping_add_refuted"
   ],
   "note": "WrappingAdd subtracts (C72_wrapping_add_refuted; exactly right iff 2b = 0 mod 2^bits). Sub, mul, shl and shr proved."
  },
  {
   "property": "C73",
   "status": "partial",
   "theorems": [
    "C73_identity_partial",
    "C73_nonzero_is_one_always",
    "C73_nonzero_is_one_refuted"
   ],
   "note": "is_zero/is_one on primitives proved; every NonZero value claims to be one (C73_nonzero_is_one_refuted)."
  },
  {
   "property": "C74",
   "status": "proved",
   "theorems": [
    "C74_factorial"
   ],
   "note": "Also the overflow behaviour of both builds."
  },
  {
   "property": "C75",
   "status": "proved",
   "theorems": [
    "C75_add_sub_neg",
    "C75_order",
    "C75_from_val",
    "C75_from_raw",
    "C75_from_val_wraps"
   ],
   "note": "Primitive backing types of every width; all N. from_val of a value that does not fit loses high bits in every build (C75_from_val_wraps). from_raw is C75_from_raw."
  },
  {
   "property": "C76",
   "status": "partial",
   "theorems": [
    "C76_mul_partial",
    "C76_mul_integer_partial",
    "C76_div_partial",
    "C76_div_zero",
    "C76_mul_refuted",
    "C76_overflow_partial"
   ],
   "note": "False as stated (C76_mul_refuted: 1.0 * 1.5 = 3.0). Proved: * is off by exactly 2^N and / returns the truncated quotient as a raw value; right for N = 0; overflow of either (C76_overflow_partial)."
  },
  {
   "property": "C77",
   "status": "proved",
   "theorems": [
    "C77_floor",
    "C77_ceil",
    "C77_trunc_fract",
    "C77_is_whole"
   ],
   "note": "Primitive backing types; ceil panics (debug) exactly when the ceiling is not representable."
  },
  {
   "property": "C78",
   "status": "partial",
   "theorems": [
    "C78_round_partial",
    "C78_round_refuted",
    "C78_two_partial"
   ],
   "note": "False as stated (C78_round_refuted: 0.25 rounds to 1). Proved: round is the ceiling, hence nearest exactly when the fraction is 0 or at least 1/2, when 2.0 is representable; otherwise it panics with overflow checks, and without them panics for unsigned types and is the ceiling for signed ones (C78_two_partial)."
  },
  {
   "property": "C79",
   "status": "partial",
   "theorems": [
    "C79_new_partial",
    "C79_new_sound",
    "C79_add_partial",
    "C79_sub_partial",
    "C79_mul_partial",
    "C79_div_partial",
    "C79_div_zero",
    "C79_neg_partial",
    "C79_overflow",
    "C79_denominator",
    "C79_new_refuted",
    "C79_checked_exact",
    "C79_new_panic_partial"
   ],
   "note": "False as stated (C79_new_refuted: Rat::new(-128i8, 5) panics because the primitive gcd is -1). Proved: exact whenever intermediates fit and are not the minimum of a signed type; for all operands never a wrong fraction and never a zero denominator; with overflow checks every result returned is exact (C79_checked_exact)."
  },
  {
   "property": "C80",
   "status": "partial",
   "theorems": [
    "C80_eq_sound",
    "C80_eq_partial",
    "C80_eq_refuted",
    "C80_stored_partial",
    "C80_eq_signed_partial",
    "C80_exact_partial"
   ],
   "note": "False as stated (C80_eq_refuted: 1/2 and 2/4). Proved: == implies same value; converse for positive fractions with coprime parts, and for all signs when neither part divides the other (C80_eq_signed_partial: the sign is always placed the same way); otherwise the pair is stored as given (C80_stored_partial). C80_exact_partial says for all operands exactly when two results of new are equal."
  },
  {
   "property": "C81",
   "status": "partial",
   "theorems": [
    "C81_floor",
    "C81_ceil_partial",
    "C81_round_partial",
    "C81_rounding_refuted",
    "C81_ceil_exact_partial",
    "C81_ceil_overflow_partial",
    "C81_round_signs_partial",
    "C81_round_exact_partial"
   ],
   "note": "floor proved in full (C81_floor). ceil and round false as stated (C81_rounding_refuted); proved for non-negative values (ceil: one too large exactly on whole values). For all signs ceil is one plus the truncation when nothing overflows (C81_ceil_exact_partial), overflow panics or wraps (C81_ceil_overflow_partial), round of negative values truncates (C81_round_signs_partial), and for all signs adds one to the truncation exactly when the remainder exceeds half the denominator (C81_round_exact_partial)."
  },
  {
   "property": "C82",
   "status": "partial",
   "theorems": [
    "C82_sign_partial",
    "C82_abs_partial",
    "C82_sign_refuted",
    "C82_negative_denominator_partial"
   ],
   "note": "False for negative denominators and for is_positive at zero (C82_sign_refuted). Proved for positive denominators, with is_positive meaning > 0; for negative denominators all of them are exactly the opposite (C82_negative_denominator_partial)."
  },
  {
   "property": "C83",
   "status": "partial",
   "theorems": [
    "C83_neg_involution_partial",
    "C83_neg_flips_partial",
    "C83_one_nar_partial",
    "C83_sign_partial",
    "C83_neg_refuted"
   ],
   "note": "Involution proved; zero and NaR are exchanged rather than fixed (C83_neg_refuted), and no value is its own negation (C83_neg_flips_partial). There is exactly one NaR of each size (C83_one_nar_partial)."
  },
  {
   "property": "C84",
   "status": "proved",
   "theorems": [
    "C84_fold_in_order",
    "C84_collect_in_order",
    "C84_try_fold_in_order",
    "C84_any_in_order",
    "C84_all_in_order",
    "C84_collect_items",
    "C84_fold_items",
    "C84_sum_items",
    "C84_product_items",
    "C84_any_items",
    "C84_all_items",
    "C84_plain"
   ],
   "note": "Stacks of every adapter kind with stateful, panicking closures. What becomes of elements not reached is C146."
  },
  {
   "property": "C85",
   "status": "proved",
   "theorems": [
    "C85_option_all_some",
    "C85_option_first_none",
    "C85_result_all_ok",
    "C85_result_first_err",
    "C85_option_no_ub"
   ],
   "note": "Option and Result of arrays, over any stack; position of the first failure observed through the visited indices."
  },
  {
   "property": "C86",
   "status": "proved",
   "theorems": [
    "C86_elementwise",
    "C86_elementwise_panics",
    "C86_scalar",
    "C86_scalar_panics",
    "C86_assign",
    "C86_assign_panics",
    "C86_assign_scalar",
    "C86_checked_some",
    "C86_checked_none",
    "C86_dot",
    "C86_sum_product",
    "C86_is_zero"
   ],
   "note": "Element operators are arbitrary functions that may panic (sum, product and dot product: that do not)."
  },
  {
   "property": "C87",
   "status": "proved",
   "theorems": [
    "C87_orthogonal",
    "C87_anticommutative",
    "C87_self",
    "C87_bilinear",
    "C87_jacobi",
    "C87_lagrange",
    "C87_axes"
   ],
   "note": ""
  },
  {
   "property": "C88",
   "status": "proved",
   "theorems": [
    "C88_faithful",
    "C88_transpose",
    "C88_product",
    "C88_empty_inner",
    "C88_sum",
    "C88_difference",
    "C88_one",
    "C88_zero",
    "C88_associative",
    "C88_identity",
    "C88_distributive",
    "C88_transpose_product",
    "C88_is_zero",
    "C88_is_one"
   ],
   "note": "Any commutative ring, against MathComp matrices; inner dimension at least one as in the quantifier. An empty inner dimension panics (C88_empty_inner)."
  },
  {
   "property": "C89",
   "status": "proved",
   "theorems": [
    "C89_determinant",
    "C89_leibniz",
    "C89_multiplicative",
    "C89_transpose"
   ],
   "note": "Any field, any total ordering for the pivot choice, division exact away from zero; determinant equal to MathComp's (Leibniz) one."
  },
  {
   "property": "C90",
   "status": "partial",
   "theorems": [
    "C90_wide_panics",
    "C90_tall_panics",
    "C90_dyn_wide_panics",
    "C90_shapes_refuted",
    "C90_square_partial",
    "C90_dyn_square_partial",
    "C90_column_partial",
    "C90_dyn_column_partial",
    "C90_dyn_tall_partial"
   ],
   "note": "Refuted: the elimination macro is called with rows and columns exchanged, so every wide matrix and every tall static matrix with at least two columns panics (proved for all), and a tall column is returned unreduced. Proved for square matrices: echelon form, row-equivalent to the input. The other shapes exactly: a static column of two or more rows is returned as it is, or panics when its first entry is zero (C90_column_partial); a dynamic column is always returned as it is (C90_dyn_column_partial); any other tall dynamic matrix is processed without undefined behaviour or an index out of range, keeps its size, and its entries from col*(col-1)+row on keep their values (C90_dyn_tall_partial)."
  },
  {
   "property": "C91",
   "status": "partial",
   "theorems": [
    "C91_static",
    "C91_indexing_refuted",
    "C91_new_partial",
    "C91_dyn_partial",
    "C91_mut",
    "C91_ref_partial",
    "C91_row_major",
    "C91_same_entries"
   ],
   "note": "Refuted: DynMatrix accepts a column out of range and reads the next row; MatrixRef accepts row = rows and reads past the buffer; without overflow checks DynMatrix::new accepts sizes whose product wraps. Proved: in-range reads are right for all; MatrixMut's IndexMut is exact; static matrices are exact; DynMatrix::new rejects every wrong length when the product does not wrap (C91_new_partial); references to static matrices and dynamic matrices made from them read the same entries (C91_same_entries)."
  },
  {
   "property": "C92",
   "status": "proved",
   "theorems": [
    "C92_static",
    "C92_static_out",
    "C92_dynamic",
    "C92_determinant"
   ],
   "note": "Static and dynamic; determinant over any field."
  },
  {
   "property": "C93",
   "status": "proved",
   "theorems": [
    "C93_ring",
    "C93_i_squared",
    "C93_abs_squared_multiplicative",
    "C93_scalar",
    "C93_div",
    "C93_div_scalar",
    "C93_field",
    "C93_is_zero_one"
   ],
   "note": "Element operators are those of an arbitrary commutative ring / field."
  },
  {
   "property": "C94",
   "status": "proved",
   "theorems": [
    "C94_choose",
    "C94_choose_returns",
    "C94_count_overflow",
    "C94_wedge",
    "C94_wedge_overflow",
    "C94_count",
    "C94_alternating"
   ],
   "note": "choose_n with overflow checks, and what it returns without them when the count overflows (C94_count_overflow); wedge then panics in both builds (C94_wedge_overflow); any ring for the wedge product."
  },
  {
   "property": "C95",
   "status": "proved",
   "theorems": [
    "C95_zero_counts"
   ],
   "note": ""
  },
  {
   "property": "C96",
   "status": "partial",
   "theorems": [
    "C96_sign_partial",
    "C96_sign_refuted"
   ],
   "note": "False as stated: is_positive(0) is false although documented as >= 0; abs(MIN) panics or returns MIN. Proved everywhere else."
  },
  {
   "property": "C97",
   "status": "proved",
   "theorems": [
    "C97_overflowing_checked"
   ],
   "note": ""
  },
  {
   "property": "C98",
   "status": "partial",
   "theorems": [
    "C98_bitwise_partial",
    "C98_bitwise_magnitudes_partial",
    "C98_bitwise_refuted",
    "C98_signs_partial",
    "C98_not_partial"
   ],
   "note": "Proved for non-negative operands; in general the operators act on magnitudes with the sign of the left operand (C98_bitwise_magnitudes_partial), which is wrong for negatives; Not complements the limbs of the magnitude (C98_bitwise_refuted). C98_signs_partial: the same for all signs of both operands, zero included; C98_not_partial: the exact result of Not for every BigInt, never -a-1. Stores are those of C57 (consistent); at most 2^61 interned BigInts at a time."
  },
  {
   "property": "C99",
   "status": "partial",
   "theorems": [
    "C99_saturate_partial",
    "C99_saturate_refuted",
    "C99_signed_partial"
   ],
   "note": "Unsigned types: proved. Signed types up to 64 bits: proved unless MIN <= a < 0, where the sign is lost (C99_saturate_refuted). C99_signed_partial: the exact result for every value and every signed type, i128 included. Stores are those of C57 (consistent); at most 2^61 interned BigInts at a time."
  },
  {
   "property": "C100",
   "status": "partial",
   "theorems": [
    "C100_truncate_partial",
    "C100_truncate_refuted",
    "C100_exact_partial"
   ],
   "note": "Proved for values that fit; other values saturate instead of wrapping, and unsigned types lose the sign (C100_truncate_refuted). C100_exact_partial: the exact result for every value and type; i128::MIN itself panics in a debug build. Stores are those of C57 (consistent); at most 2^61 interned BigInts at a time."
  },
  {
   "property": "C101",
   "status": "proved",
   "theorems": [
    "C101_get_returns"
   ],
   "note": "Executions in which no id ever has 2^64 - 1 references at once (C61_condition)."
  },
  {
   "property": "C102",
   "status": "proved",
   "theorems": [
    "C102_runs_alone_returns",
    "C102_returns_among_others"
   ],
   "note": ""
  },
  {
   "property": "C103",
   "status": "proved",
   "theorems": [
    "C103_float_bytes",
    "C103_bits"
   ],
   "note": ""
  },
  {
   "property": "C104",
   "status": "partial",
   "theorems": [
    "C104_small_partial",
    "C104_negative_partial",
    "C104_power_partial",
    "C104_debug_partial",
    "C104_debug_refuted",
    "C104_overflow_partial",
    "C104_power_unchecked_partial"
   ],
   "note": "False as stated (C104_debug_refuted: 1/16 prints 625, zero and negatives print nothing). Proved for values of at least 1/10; positive smaller values print their decimals without leading zeros or point (C104_small_partial), others nothing (C104_negative_partial); overflow of raw * 10^N panics or prints the digits of the wrapped number (C104_overflow_partial), overflow of 10^N panics with overflow checks (C104_power_partial); without them it divides by zero or prints the digits of a wrapped number (C104_power_unchecked_partial)."
  },
  {
   "property": "C105",
   "status": "partial",
   "theorems": [
    "C105_constants",
    "C105_predicates_partial",
    "C105_abs",
    "C105_representation",
    "C105_predicates_refuted"
   ],
   "note": "Constants, abs and the inline limit: proved for every BigInt. The predicates are proved for every BigInt but a negated zero, for which is_zero is false and is_negative true (C105_predicates_refuted). Stores are those of C57 (consistent); at most 2^61 interned BigInts at a time."
  },
  {
   "property": "C106",
   "status": "partial",
   "theorems": [
    "C106_doubles_partial",
    "C106_approx_partial",
    "C106_exact_partial",
    "C106_huge_partial",
    "C106_sign_refuted",
    "C106_infinity_refuted"
   ],
   "note": "Proved for non-negative numbers below 2^1024. The sign is ignored (C106_sign_refuted), and from 2^1024 on the result is a NaN instead of infinity when a limb from the 17th on is zero (C106_infinity_refuted, C106_huge_partial). C106_doubles_partial: for every number of less than 2^31 limbs the result is what the same operations give in Flocq's binary64 (uses the standard library's axioms of the reals). Stores are those of C57 (consistent); at most 2^61 interned BigInts at a time."
  },
  {
   "property": "C107",
   "status": "proved",
   "theorems": [
    "C107_binary",
    "C107_round_trip"
   ],
   "note": "Every BigInt but a negated zero. Stores are those of C57 (consistent); at most 2^61 interned BigInts at a time."
  },
  {
   "property": "C108",
   "status": "partial",
   "theorems": [
    "C108_zero",
    "C108_one_partial",
    "C108_one_refuted",
    "C108_one_wraps",
    "C108_bounds",
    "C108_smallest",
    "C108_sign_partial",
    "C108_sign_refuted"
   ],
   "note": "one() false as stated when 1 is not representable: Fixed<i8,7>::one() is -1 in every build (C108_one_refuted, C108_one_wraps); is_positive(0) is false and abs(MIN) wraps in release (C108_sign_refuted). zero, bounds, min_positive, max_negative proved in full; one and sign proved otherwise."
  },
  {
   "property": "C109",
   "status": "partial",
   "theorems": [
    "C109_constants_partial",
    "C109_is_one_refuted",
    "C109_bounds",
    "C109_whole"
   ],
   "note": "is_one false as stated: Rat::new(2, 2) is 1 but is_one is false (C109_is_one_refuted). Proved: is_one implies 1, and is right for denominator 1; the rest in full."
  },
  {
   "property": "C110",
   "status": "proved",
   "theorems": [
    "C110_bounds",
    "C110_nonzero",
    "C110_smallest"
   ],
   "note": "Pattern 0 excluded by the NonZero types themselves."
  },
  {
   "property": "C111",
   "status": "proved",
   "theorems": [
    "C111_patterns",
    "C111_arrays",
    "C111_integers"
   ],
   "note": "Signed integers through their two's complement pattern, floats through their IEEE pattern."
  },
  {
   "property": "C112",
   "status": "partial",
   "theorems": [
    "C112_bounds",
    "C112_predicates",
    "C112_abs",
    "C112_min_positive_partial",
    "C112_min_positive_refuted",
    "C112_doubles",
    "C112_singles",
    "C112_compare"
   ],
   "note": "min_positive/max_negative false as stated: subnormals are smaller (C112_min_positive_refuted); proved: least among normal numbers. The rest proved for every IEEE format. C112_doubles, C112_singles and C112_compare identify the two formats and their comparison with Flocq's binary64 and binary32 (these use the standard axioms of the reals)."
  },
  {
   "property": "C113",
   "status": "partial",
   "theorems": [
    "C113_nearest_partial",
    "C113_overflow_partial",
    "C113_types",
    "C113_saturate_refuted",
    "C113_monotone",
    "C113_rounding"
   ],
   "note": "False for u128 into f32 only: values from 2^128 - 2^103 give infinity (C113_saturate_refuted, C113_overflow_partial). Proved for every other pair of types (C113_types), and for every IEEE format below the threshold. For every integer the pattern is the one of Flocq's rounding to nearest even (C113_rounding, with the standard axioms of the reals)."
  },
  {
   "property": "C114",
   "status": "partial",
   "theorems": [
    "C114_to_int_partial",
    "C114_round_trip",
    "C114_nearest_refuted"
   ],
   "note": "False as stated: rounds toward zero, 2.75 becomes 2 (C114_nearest_refuted). Proved: the integral part, clamped; NaN, infinities; round trip."
  },
  {
   "property": "C115",
   "status": "proved",
   "theorems": [
    "C115_bitops"
   ],
   "note": ""
  },
  {
   "property": "C116",
   "status": "proved",
   "theorems": [
    "C116_scalar",
    "C116_get",
    "C116_set",
    "C116_axes",
    "C116_row_column",
    "C116_distance"
   ],
   "note": "distance2 over any commutative ring."
  },
  {
   "property": "C117",
   "status": "proved",
   "theorems": [
    "C117_from_rows",
    "C117_from_columns",
    "C117_diag"
   ],
   "note": ""
  },
  {
   "property": "C118",
   "status": "proved",
   "theorems": [
    "C118_drop",
    "C118_index",
    "C118_drop_weak"
   ],
   "note": "Any number of threads, any schedule; sequentially consistent, and C118_drop_weak under release/acquire/relaxed views for an owner synchronised with every push. Index is get with a panic on None."
  },
  {
   "property": "C119",
   "status": "partial",
   "theorems": [
    "C119_race_free_refuted",
    "C119_race_free_partial",
    "C119_without_len_partial"
   ],
   "note": "False because of len (C119_race_free_refuted): its first load is relaxed, so it can follow the head to a node not yet visibly initialised. Proved: no race and no null pointer as long as len is called only by threads that already know of an element, in particular for programs without len. View-based release/acquire/relaxed memory; no load buffering."
  },
  {
   "property": "C120",
   "status": "proved",
   "theorems": [
    "C120_contents",
    "C120_answers",
    "C120_published"
   ],
   "note": "For executions in which len is called only by threads that know of an element (others have the race of C119). View-based release/acquire/relaxed memory; no load buffering."
  },
  {
   "property": "C121",
   "status": "partial",
   "theorems": [
    "C121_round_fract",
    "C121_floor_ceil_partial",
    "C121_signs",
    "C121_direction_refuted"
   ],
   "note": "Directions false as documented (C121_direction_refuted, -1.5): the implementations forward to std, which floors down and truncates toward zero. Proved for every IEEE format: what they do for every finite number (equal to the documented direction from 0 on), round, fract, signs, NaN and infinities, exactness."
  },
  {
   "property": "C122",
   "status": "partial",
   "theorems": [
    "C122_race_free_refuted",
    "C122_locked_partial",
    "C122_turns_partial",
    "C122_one_adder_partial"
   ],
   "note": "False as stated (C122_race_free_refuted): set_val comes after the releasing fetch_add, so two calls of add that do not even overlap can race. Proved: with a lock around add (and none around incr, decr, get) there is no race, no call breaks, and every handle and every get has its value. Proved too of the code as it is, without a lock, if the threads take turns in calling add, the turn being handed over when one thread learns what the other has done (C122_turns_partial), in particular if only one thread calls add (C122_one_adder_partial). View-based release/acquire/relaxed memory; no load buffering; a walk along the list of chunks is one step that may miss any chunk the thread does not know of, and push may return any length that C64 and C120 allow."
  },
  {
   "property": "C123",
   "status": "partial",
   "theorems": [
    "C123_reference_refuted",
    "C123_reference_partial",
    "C123_absent_refuted",
    "C123_absent_partial"
   ],
   "note": "False as stated: C123_reference_refuted (the slot of a reference is reused after decr), C123_absent_refuted (incr of an id that add never returned makes get read an absent value: unwrap_unchecked on None). Proved: references are stable as long as the id keeps references; get finds a value if incr is only called with ids that add returned."
  },
  {
   "property": "C124",
   "status": "partial",
   "theorems": [
    "C124_in_place_refuted",
    "C124_always_panics_partial"
   ],
   "note": "False of every input: the loop goes one bit past the end and get_bit panics there (C124_in_place_refuted, C124_always_panics_partial for all operands). Nothing in the repository calls it."
  },
  {
   "property": "C125",
   "status": "proved",
   "theorems": [
    "C125_total_order"
   ],
   "note": "Every BigInt but a negated zero. The order is not the numeric one (C47). Stores are those of C57 (consistent); at most 2^61 interned BigInts at a time."
  },
  {
   "property": "C126",
   "status": "partial",
   "theorems": [
    "C126_rejects_refuted",
    "C126_rejects_partial",
    "C126_contained_partial"
   ],
   "note": "Refuted: without overflow checks swap_rows(0, 2^63 + 1) exchanges rows 0 and 1 of a 2 x 2 matrix; swap_rows(7, 7) is accepted in every build. Proved: two different rows are rejected with overflow checks, or when the offset does not wrap, for matrices with a column; in any case the matrix keeps its shape and elements (C126_contained_partial)."
  },
  {
   "property": "C127",
   "status": "partial",
   "theorems": [
    "C127_pow",
    "C127_sqrt",
    "C127_root_refuted",
    "C127_root_partial",
    "C127_cbrt_partial",
    "C127_negative_partial",
    "C127_log"
   ],
   "note": "root and cbrt of negative numbers are NaN, e.g. cbrt(-8) (C127_root_refuted, C127_negative_partial for all of them): the trait's defaults go through powf. Proved for non-negative numbers; pow, sqrt and log in full. Exact real arithmetic; rounding not included. Uses the axioms of Coq's real numbers."
  },
  {
   "property": "C128",
   "status": "proved",
   "theorems": [
    "C128_reciprocals",
    "C128_identities"
   ],
   "note": "Exact real arithmetic; cot is not characterised where the cosine is 0. Uses the axioms of Coq's real numbers."
  },
  {
   "property": "C129",
   "status": "proved",
   "theorems": [
    "C129_metric",
    "C129_plane",
    "C129_complex_abs"
   ],
   "note": "Exact real arithmetic; float rounding and overflow not included. Uses the axioms of Coq's real numbers."
  },
  {
   "property": "C130",
   "status": "proved",
   "theorems": [
    "C130_shiftable_pow2",
    "C130_add_sub",
    "C130_eq",
    "C130_from_val",
    "C130_constants",
    "C130_floor_ceil",
    "C130_too_many_bits"
   ],
   "note": "For the shift amounts U<K> honours: below the width and, in release builds, below the largest power of two not above the width (every amount below the width when K is a power of two, C130_shiftable_pow2). from_val of a value that does not fit loses the high bits in either build (stated). is_zero, is_one, min_value and max_value are C130_constants."
  },
  {
   "property": "C131",
   "status": "partial",
   "theorems": [
    "C131_fract_wrong_partial",
    "C131_fract_trunc_partial",
    "C131_fract_congruence_partial",
    "C131_round_partial",
    "C131_mul_partial",
    "C131_mul_wraps_partial",
    "C131_refuted"
   ],
   "note": "False as stated (C131_refuted: fract(2.0) = 3.0 and trunc(2.0) panics with 8 fraction bits, 1/256 > 1.0, 1.0 * 1.5 = 3.0, 0.25 rounds to 1). Proved: fract and trunc right up to 7 fraction bits; for any number of bits value and fract differ by a whole number; products too large by 2^N, wrapping without overflow checks (C131_mul_wraps_partial); round is ceil up to 6 fraction bits. Order: see C31. C131_fract_wrong_partial: with 8 or more fraction bits fract is 1 or more for every nonzero number below 2^(8K-1-N mod 8) (raw)."
  },
  {
   "property": "C132",
   "status": "proved",
   "theorems": [
    "C132_from_val",
    "C132_equality",
    "C132_sign"
   ],
   "note": "The negation of zero is BigInt's negative zero (C43): it denotes 0 but is not accepted by the other theorems."
  },
  {
   "property": "C133",
   "status": "partial",
   "theorems": [
    "C133_add_sub_partial",
    "C133_add_sub_otherwise_partial",
    "C133_mul_partial",
    "C133_div_rem_partial",
    "C133_cmp_partial",
    "C133_floor_partial",
    "C133_ceil_partial",
    "C133_trunc_fract_partial",
    "C133_fract_panics_partial",
    "C133_round_partial",
    "C133_refuted"
   ],
   "note": "False as stated (C133_refuted: with one fraction bit floor(-1.5) = -1, ceil(-1.5) = 0, ceil(2^64) = 2^64 + 1, 1.5 * 1.5 = 4.5; round(0.25) = 1; with 64 bits fract(0.5) panics and, with overflow checks, floor panics). Proved: + and - where BigInt's are exact, and elsewhere two units of the last place off (C133_add_sub_otherwise_partial); * too large and / too small by exactly 2^N; floor is toward zero; ceil and round are one plus the truncation except on whole numbers (ceil: whole numbers whose raw value is below the next multiple of 64 bits); trunc and fract right up to 63 bits."
  },
  {
   "property": "C134",
   "status": "partial",
   "theorems": [
    "C134_floor_trunc_fract_partial",
    "C134_ceil_round_partial",
    "C134_too_many_bits_partial",
    "C134_refuted"
   ],
   "note": "False as stated (C134_refuted: with i8 and N = 7 ceil(-0.5) panics with overflow checks and ceil(0.5) = -1 without; with u8 and N = 8 floor(0.5) = 0.5 without). Proved for signed types with N one less than the width: floor, trunc and fract right, ceil and round described for every value; for N at least the width: everything panics with overflow checks, and without them N is reduced modulo the width."
  },
  {
   "property": "C135",
   "status": "proved",
   "theorems": [
    "C135_checked",
    "C135_wrapping",
    "C135_quotient",
    "C135_product_quotient"
   ],
   "note": "Any integer type with at least one bit."
  },
  {
   "property": "C136",
   "status": "partial",
   "theorems": [
    "C136_fits_partial",
    "C136_overflow_partial",
    "C136_unchecked_partial",
    "C136_refuted"
   ],
   "note": "Refuted: the code multiplies by s and divides by s*s, so for i8 (100 + 0i) / 20 panics with overflow checks and is 0 without, and without checks (100 + 0i) / 16 divides by zero. Proved: right, in both builds, whenever s*s and both products by s fit; with overflow checks a panic in every other case; without them the exact result for all operands: square and products are reduced first, and the division panics exactly if the reduced square is zero (C136_unchecked_partial)."
  },
  {
   "property": "C137",
   "status": "proved",
   "theorems": [
    "C137_cross",
    "C137_matrix_product"
   ],
   "note": "Inner dimension at least one as in C88."
  },
  {
   "property": "C138",
   "status": "proved",
   "theorems": [
    "C138_dot_product",
    "C138_sum",
    "C138_matrix_product",
    "C138_two_products",
    "C138_whole_numbers",
    "C138_empty",
    "C138_wedge",
    "C138_in_range",
    "C138_matrix_in_range",
    "C138_product",
    "C138_whole_product"
   ],
   "note": "u is 2^-precision. For sum without products the bound is ((1+u)^(n-1) - 1) times the sum of magnitudes. Uses the axioms behind Coq's real numbers, as Flocq does."
  },
  {
   "property": "C139",
   "status": "partial",
   "theorems": [
    "C139_in_range_partial",
    "C139_refuted",
    "C139_all_finite_partial",
    "C139_overflow_partial",
    "C139_underflow_partial",
    "C139_special_partial"
   ],
   "note": "Refuted for f64: abs of 2^600 is infinite and abs of 2^-600 is zero. Proved: a relative error of at most (1+u)^2 - 1 when the squared modulus does not overflow and neither square underflows (C139_in_range_partial); for all finite components, that the modulus is a square root, rounded once, of the squared modulus up to the error of two products and a sum, or infinity when that reaches the overflow threshold (C139_all_finite_partial); that it is infinite as soon as one square passes the threshold; that it is zero exactly when both squares are at most half the smallest float; NaN and infinite components. Uses the axioms behind Coq's real numbers, as Flocq does."
  },
  {
   "property": "C140",
   "status": "partial",
   "theorems": [
    "C140_triangular_partial",
    "C140_nan_partial",
    "C140_refuted",
    "C140_shapes_partial",
    "C140_reduced_partial",
    "C140_small_partial"
   ],
   "note": "Refuted for f64: the pivot chosen is the smallest non-zero entry of the column, so a matrix of determinant about 2 gets determinant 0; a NaN beside another non-zero entry in the first column always panics (C140_nan_partial). Proved: upper triangular matrices with finite entries and no zero on the diagonal get the product of the diagonal, multiplied from the left (C140_triangular_partial); one row is exact and two rows are within the error of two products and a difference (C140_small_partial); from three rows on, whenever the reduced matrix is finite, the determinant is the rounded product of its diagonal, negated for each exchange of rows, and that matrix is the input up to the rounding of C170 (C140_reduced_partial). Row reduction of a matrix that is not square (and has at least two columns) panics. For two rows see C138. Uses the axioms behind Coq's real numbers, as Flocq does."
  },
  {
   "property": "C141",
   "status": "partial",
   "theorems": [
    "C141_in_range_partial",
    "C141_scalar_partial",
    "C141_refuted",
    "C141_scalar_refuted",
    "C141_all_finite_partial",
    "C141_overflow_partial",
    "C141_underflow_partial",
    "C141_scalar_extremes_partial"
   ],
   "note": "Refuted for f64: 2^600 / 2^600 and 2^-600 / 2^-600 are NaN. Proved: an error bound for each finite component when the squared modulus of the divisor neither overflows nor underflows, and the same for division by a scalar, which goes through its square (C141_scalar_partial, C141_scalar_refuted); an error bound for every divisor whose squared modulus exceeds its own rounding error, subnormal squares included (C141_all_finite_partial); every component is zero or NaN when a square of the divisor overflows, and none is finite when both squares vanish (C141_overflow_partial, C141_underflow_partial, C141_scalar_extremes_partial). Uses the axioms behind Coq's real numbers, as Flocq does."
  },
  {
   "property": "C142",
   "status": "proved",
   "theorems": [
    "C142_checked",
    "C142_wrapping"
   ],
   "note": "Any n; the closures may panic."
  },
  {
   "property": "C143",
   "status": "partial",
   "theorems": [
    "C143_text_partial",
    "C143_injective_partial",
    "C143_right_partial",
    "C143_refuted"
   ],
   "note": "False as stated (C143_refuted: 1.5 with four fraction bits prints 10000.1000). Proved: the two numerals printed, for every value (negative parts in two's complement); different values print differently; and exactly which non-negative values print right - those without whole part (or fraction bits) whose fraction is 0 or at least 1/2."
  },
  {
   "property": "C144",
   "status": "proved",
   "theorems": [
    "C144_text",
    "C144_injective"
   ],
   "note": "Stored numerator and denominator, see C80."
  },
  {
   "property": "C145",
   "status": "proved",
   "theorems": [
    "C145_unsigned",
    "C145_signed"
   ],
   "note": "The generator's bytes are taken as independent and uniform; the code stores them as they come."
  },
  {
   "property": "C146",
   "status": "partial",
   "theorems": [
    "C146_same_outcome",
    "C146_same_collection",
    "C146_left_partial",
    "C146_option_partial",
    "C146_option_panic_partial",
    "C146_result_partial",
    "C146_result_panic_partial",
    "C146_checked_partial",
    "C146_refuted"
   ],
   "note": "Refuted: when a consumer stops early (any, all, try_fold, a None or Err while collecting, an overflow in Vector::checked_add or checked_sub) or panics, elements are forgotten without being dropped, since IntoIter has no Drop and collected elements sit in MaybeUninit. Proved: runs to the end leave nothing; otherwise exactly which elements stay behind. That none is handed out twice is part of both (a cell is emptied when it is read) and of C84."
  },
  {
   "property": "C147",
   "status": "proved",
   "theorems": [
    "C147_vectors",
    "C147_scalars",
    "C147_same_outcome",
    "C147_stored"
   ],
   "note": "The element operator is any function that says what it leaves and whether it panicked."
  },
  {
   "property": "C148",
   "status": "proved",
   "theorems": [
    "C148_agrees",
    "C148_assignments_agree",
    "C148_caught",
    "C148_programs"
   ],
   "note": "Single-threaded; fewer than 2^61 interned BigInts at a time. Operations that change the store last and own nothing when they can panic are the ones of BigIntModel.v; the others are written again with the frames that own their operands and temporaries, and proved to agree."
  },
  {
   "property": "C149",
   "status": "proved",
   "theorems": [
    "C149_tests",
    "C149_neutral",
    "C149_no_bytes"
   ],
   "note": ""
  },
  {
   "property": "C150",
   "status": "proved",
   "theorems": [
    "C150_all_whole",
    "C150_first_hole",
    "C150_kinds"
   ],
   "note": "The nesting is a list of layers, so the theorems cover every depth at once; C150_kinds shows the two cases are exhaustive and exclusive."
  },
  {
   "property": "C151",
   "status": "proved",
   "theorems": [
    "C151_each_step",
    "C151_any",
    "C151_natural",
    "C151_laws"
   ],
   "note": "C151_natural is the statement for + * << & | ^ and pow over non-negative values, C151_laws the comparison of equal expressions, C151_each_step the general one. C151_any gives the exact result for operands of any signs, wrong sums, bit operations on magnitudes and signs of remainders included. The pool has room for the temporaries of the expression; exponents as for C52. Stores are those of C57 (consistent); at most 2^61 interned BigInts at a time."
  },
  {
   "property": "C152",
   "status": "proved",
   "theorems": [
    "C152_wrapping",
    "C152_exact",
    "C152_checked",
    "C152_signed"
   ],
   "note": "C152_wrapping, C152_exact and C152_checked for U<N>, C152_signed for I<N>. Products with overflow checks may go unreported (C28), hence the condition in C152_checked."
  },
  {
   "property": "C153",
   "status": "proved",
   "theorems": [
    "C153_bigint",
    "C153_others",
    "C153_writers"
   ],
   "note": "For every writer (any state, any answer to each write_str). The texts themselves are those of C35, C53, C54, C143, C144; each theorem takes the text of the plain model and shows how it reaches the writer."
  },
  {
   "property": "C154",
   "status": "partial",
   "theorems": [
    "C154_ignored_partial",
    "C154_display_partial",
    "C154_refuted"
   ],
   "note": "False as stated (C154_refuted: 9 in a field of width 3 is written as 9, + is ignored, {:#b} of a Fixed has no 0b). Proved: the options make no difference at all (C154_ignored_partial), so a non-negative BigInt looks like a primitive exactly if there is no + and the width is at most the number of digits (C154_display_partial)."
  },
  {
   "property": "C155",
   "status": "proved",
   "theorems": [
    "C155_exact",
    "C155_total",
    "C155_complete"
   ],
   "note": "For primitive integers of any width; the fuel bound stands for termination of the gcd."
  },
  {
   "property": "C156",
   "status": "proved",
   "theorems": [
    "C156_folds_checked",
    "C156_elementwise_checked",
    "C156_matrix_elementwise_checked",
    "C156_matrix_product_checked",
    "C156_cross_checked",
    "C156_complex_checked",
    "C156_complex_division_checked",
    "C156_complex_scalar_division_checked",
    "C156_folds_small",
    "C156_matrix_product_small",
    "C156_complex_small",
    "C156_cross_small",
    "C156_zero_divisor"
   ],
   "note": "For primitive integers of any width. Vector::distance and Complex::abs of rationals panic always (Rat::pow and Rat::sqrt are todo!()) and are not modelled."
  },
  {
   "property": "C157",
   "status": "partial",
   "theorems": [
    "C157_refuted",
    "C157_small_partial",
    "C157_values_partial",
    "C157_afterwards_partial"
   ],
   "note": "False as stated (C157_refuted: two threads that make 5*2^64 and 7*2^64 at the same time can both get the same BigInt). Proved: BigInts below 2^62 in magnitude are never affected; as long as no two threads make large BigInts at the same moment, unless both are numbers that are there already (anything else may overlap) every BigInt keeps its value and equality is equality of integers; and when all calls have returned the store is in the state that the theorems about one thread (C41-C61) start from. Sequentially consistent steps, as in C62."
  },
  {
   "property": "C158",
   "status": "partial",
   "theorems": [
    "C158_elementwise_partial",
    "C158_borrowed_partial",
    "C158_scalar_partial",
    "C158_matrix_elementwise_partial",
    "C158_any_partial",
    "C158_product_any_partial",
    "C158_product_partial",
    "C158_product_natural_partial",
    "C158_complex_partial",
    "C158_complex_any_partial",
    "C158_complex_scalar_partial",
    "C158_cross_any_partial",
    "C158_cross_partial",
    "C158_refuted"
   ],
   "note": "False as stated, because sums and differences of BigInts of opposite signs can be off by two (C158_refuted: [[1, 1]] * [[1], [-3]] is [[0]], Vector([1]) - Vector([3]) is Vector([0])). Proved: exact whenever each single operator application is within the limits of that operator (right_op, add_exact); without any such condition, what the operators of vectors and matrices (for / and % within their limits), the matrix product, the cross product and + - * of complex numbers return instead, as the integers that BigInt's + and - make of each pair (bi_sum, bi_diff: C158_any_partial, C158_product_any_partial, C158_complex_any_partial, C158_cross_any_partial); products of matrices of non-negative numbers without any such condition; and always that operands and temporaries are released and all other BigInts keep their values. After a panic nothing is claimed."
  },
  {
   "property": "C159",
   "status": "partial",
   "theorems": [
    "C159_agrees",
    "C159_scalar_partial",
    "C159_product_partial",
    "C159_complex_partial",
    "C159_vectors_partial",
    "C159_borrowed_partial",
    "C159_assign_partial",
    "C159_assign_scalar_partial",
    "C159_refuted"
   ],
   "note": "False as stated for Vector op Vector and Vector op &Vector (and the same iterators in Matrix + and -, whose element operators do not panic): the iterators of static-iter never drop what they still hold, so the elements behind the position of the panic stay referenced for ever (C159_refuted: [9, X] / [-7 X, -7] with X = 2^100 + 3). Proved: exactly those elements are leaked, nothing else, and all other BigInts keep their values (C159_vectors_partial, C159_borrowed_partial); nothing is leaked by the scalar forms, the matrix product, and + - * / of Complex (C159_scalar_partial, C159_product_partial, C159_complex_partial); the assigning forms leave nothing behind and the target is as described (C159_assign_partial, C159_assign_scalar_partial). Never an abort. C159_agrees ties the calls to those of C158. Complex + T, - T, * T and cross are not covered here: their operators + - * do not panic."
  },
  {
   "property": "C160",
   "status": "proved",
   "theorems": [
    "C160_stored",
    "C160_elementwise",
    "C160_matrix_elementwise",
    "C160_matrix_product",
    "C160_matrix_product_fits",
    "C160_cross",
    "C160_complex",
    "C160_vector_fits",
    "C160_vector_overflow",
    "C160_products_fit"
   ],
   "note": "Products with overflow checks may go unreported (C28), so for them only 'a panic or the reduced result' and the exact result in range are claimed. Division is left out: the long division of U and I is right only under the condition of C29 and C40. Integers are not Real, so Vector::sum, product and dot_product do not exist for them."
  },
  {
   "property": "C161",
   "status": "proved",
   "theorems": [
    "C161_wrapping",
    "C161_exact",
    "C161_no_zero",
    "C161_any_order",
    "C161_checked_exact"
   ],
   "note": "C161_checked_exact says exactly which products panic with overflow checks. C161_any_order also says that products of parts can be multiplied."
  },
  {
   "property": "C162",
   "status": "proved",
   "theorems": [
    "C162_sum",
    "C162_elementwise",
    "C162_matrix_elementwise",
    "C162_complex"
   ],
   "note": "Over a primitive integer of any width. Vector::distance of Fixed panics always (Fixed::pow is todo!()) and is not modelled."
  },
  {
   "property": "C163",
   "status": "partial",
   "theorems": [
    "C163_dot_partial",
    "C163_dot_right_partial",
    "C163_matrix_partial",
    "C163_cross_partial",
    "C163_complex_partial",
    "C163_abs_squared_partial",
    "C163_quotient_partial",
    "C163_product_partial",
    "C163_product_no_one_partial",
    "C163_refuted"
   ],
   "note": "False as stated (C163_refuted): Fixed::mul multiplies the raw values and Fixed::div divides them, so with N fraction bits every product of two is 2^N too large: [1.0] . [1.5] = 3.0 for N = 1. Proved for all values: dot, matrix, cross and complex products are exactly 2^N times the true value if the raw values fit and panic otherwise with overflow checks; the product of the n elements of a vector is 2^(N n) times too large; complex quotients have the truncated true quotient as raw value. C163_dot_right_partial: a dot product is right exactly if N = 0 or it is zero."
  },
  {
   "property": "C164",
   "status": "proved",
   "theorems": [
    "C164_untouched",
    "C164_untouched_comparisons",
    "C164_untouched_operators",
    "C164_shifts_touch"
   ],
   "note": "Expressions are those of C151, each operator within its limits and every result below 2^62; C164_untouched_operators also covers single operators whose result is wrong (C44, C46, C98), except division by zero. 'Does not touch' is: the same word in every store, and the store returned unchanged. C164_shifts_touch shows why shifts are not in the claim."
  },
  {
   "property": "C165",
   "status": "proved",
   "theorems": [
    "C165_returns_among_others",
    "C165_runs_alone"
   ],
   "note": "One step per access to shared memory, sequentially consistent; incr and decr are one step each (fetch_add, and fetch_update, whose retries only happen when another thread made progress). Executions in which no id has 2^64 - 1 references at once, as in C61."
  },
  {
   "property": "C166",
   "status": "partial",
   "theorems": [
    "C166_bounded_refuted",
    "C166_bounded_partial",
    "C166_overlapping_partial"
   ],
   "note": "False as stated (C166_bounded_refuted: four threads that find the interner empty append four chunks). Proved when calls of add do not overlap each other; incr, decr and get may overlap them and each other (C166_bounded_partial), and also when they do, as long as those that overlap another find their value in the interner (C166_overlapping_partial)."
  },
  {
   "property": "C167",
   "status": "proved",
   "theorems": [
    "C167_exact",
    "C167_checked",
    "C167_wraps",
    "C167_order"
   ],
   "note": "Primitive backing types. Products, quotients and round are left out: they are not those of the numbers (C76, C78). With overflow checks the condition is exact: returns if and only if all subexpressions are representable."
  },
  {
   "property": "C168",
   "status": "partial",
   "theorems": [
    "C168_same_code",
    "C168_expressions_partial",
    "C168_right_values_partial",
    "C168_no_deadlock_partial",
    "C168_finishes_partial",
    "C168_refuted"
   ],
   "note": "False as stated (C168_refuted: two threads that convert 5*2^64 and 7*2^64 from u128 can both get the same word). Proved when no call of add for a number that the interner does not have overlaps another call of add (everything else may overlap), no count reaches 2^64 - 1, the interner has at most 2^62 slots, and divisors and shift amounts are within the limits of C46, C50 and C51. What a thread gets is then what the operators return one after the other in one thread, wrong sums included (C151_any), and the integer that the expression stands for if each operation is right in one thread (C168_right_values_partial). C168_same_code: the programs that the threads run, run alone, are the functions of C41-C61. Finishing is proved for endless schedules in which the thread takes steps again and again. Sequentially consistent steps, as in C62; a slice is read in the step in which get returns it; powers with exponents up to the fuel."
  },
  {
   "property": "C169",
   "status": "proved",
   "theorems": [
    "C169_distance_squared",
    "C169_distance",
    "C169_same_vector",
    "C169_symmetric",
    "C169_no_metric"
   ],
   "note": "powf is a parameter: Rust does not specify its rounding, so the theorems take its error on squares as a hypothesis; a correctly rounded one meets it with e = u and h half the smallest float (C169_demo). C169_no_metric has the two counterexamples for f64. Uses the axioms behind Coq's real numbers, as Flocq does."
  },
  {
   "property": "C170",
   "status": "partial",
   "theorems": [
    "C170_backward_partial",
    "C170_dyn_partial",
    "C170_refuted",
    "C170_lost_refuted"
   ],
   "note": "False as stated (C170_refuted): the loop also recomputes the entry in the pivot's own column as x - p * (x / p), which rounding need not make zero: 49 1 / 53 1 keeps -2^-47 below its first pivot, so the result is not an echelon form, and its rank can be too large. Everything else in the statement is proved (C170_backward_partial for Matrix, C170_dyn_partial for DynMatrix), including the bound for what is left over. The multipliers are not bounded: the pivot is the smallest non-zero entry, so two matrices with entries of size at most 1 that differ by 1 in an entry reduce to the same result (C170_lost_refuted). Uses the axioms behind Coq's real numbers, as Flocq does."
  },
  {
   "property": "C171",
   "status": "partial",
   "theorems": [
    "C171_exact_partial",
    "C171_interchangeable_partial",
    "C171_refuted"
   ],
   "note": "Exact value and exact failure condition for every expression (C171_exact_partial); interchangeable algorithms up to leading zeros without overflow checks (C171_interchangeable_partial). With overflow checks Element shr panics where Bitwise shr works, and without shrinking the leading zeros differ (C171_refuted)."
  },
  {
   "property": "C172",
   "status": "proved",
   "theorems": [
    "C172_modular",
    "C172_no_alarm",
    "C172_reports",
    "C172_refused"
   ],
   "note": "Reduction once at the end (C172_modular), no false alarms (C172_no_alarm), no missed overflow for sums and differences (C172_reports). A checked shift by more than the buffer reports and changes nothing (C172_refused). That a product may overflow without a report is C07."
  },
  {
   "property": "C173",
   "status": "partial",
   "theorems": [
    "C173_values_partial",
    "C173_counts_partial",
    "C173_comparison_partial",
    "C173_conversion_partial",
    "C173_dropped_partial",
    "C173_panics_partial",
    "C173_compared_partial",
    "C173_plain_partial",
    "C173_panic_refuted",
    "C173_conversion_refuted",
    "C173_comparison_refuted",
    "C173_destructor_refuted"
   ],
   "note": "False as stated. C173_panic_refuted: a conversion that panics leaves its slot counted but empty, and get on that id is undefined behaviour (unwrap_unchecked on None) in safe code. C173_conversion_refuted, C173_comparison_refuted, C173_destructor_refuted: element code that adds the value a slot held before while that slot is being refilled is handed the slot, which then changes value under it. Proved, for programs whose element code never adds and for programs that never release, with any nesting and any caught panics: every get through an id with references gives the one value it was handed out for, at every moment of the run (C173_values_partial), and panics lose at most one reference per call of add that panicked (C173_counts_partial). Exactly: a panicking comparison changes nothing (C173_comparison_partial), a panicking conversion changes one id in the way stated (C173_conversion_partial), a panicking destructor leaves the new value in place counted for nobody (C173_dropped_partial), and these panics come out of add exactly when stated (C173_panics_partial, C173_compared_partial). C173_plain_partial ties the model to that of C59."
  },
  {
   "property": "C174",
   "status": "partial",
   "theorems": [
    "C174_list_partial",
    "C174_refuted",
    "C174_chunk_partial"
   ],
   "note": "False as stated (C174_refuted: two values, the destructor of the first panics, the second is never dropped and its node never freed). Proved for all states the threads can reach: destructors that return are called once each in order and all is freed; at the first that panics the values up to it have been dropped once, the nodes behind it are leaked with exactly the values behind it, and nothing is freed twice or read after it was freed (C174_list_partial). C174_chunk_partial: inside one chunk of an interner the other slots are still dropped, and a second panic aborts."
  },
  {
   "property": "C175",
   "status": "partial",
   "theorems": [
    "C175_room_partial",
    "C175_large_partial",
    "C175_refuted"
   ],
   "note": "False as stated (C175_refuted: usize::MAX; C175_large_partial: the 32 largest capacities panic in a build with overflow checks, and all but one of them give an interner without slots in a build without). Proved for all other capacities and all histories: the slots made are enough, fewer than 32 too many, and the list of chunks stays as made while fewer than capacity ids have references at each add (C175_room_partial)."
  },
  {
   "property": "C176",
   "status": "proved",
   "theorems": [
    "C176_hand_over"
   ],
   "note": "For the memory model of WeakListModel.v (release/acquire/relaxed by views, no load buffering). happens_before is read off the history of calls and accesses. len as in C119: a first call of len by a thread that knows of no element races on its own."
  },
  {
   "property": "C177",
   "status": "partial",
   "theorems": [
    "C177_any_element_refuted",
    "C177_frozen_partial"
   ],
   "note": "False as stated (C177_any_element_refuted: `unsafe impl<T> Sync` has no bound on T; two threads get a reference to the same element and write inside it, as with a Cell or Rc). Proved when the insides of an element are written only by the thread that makes it and before it is in the list (C177_frozen_partial). An element is identified with the place of its insides. The interner is shareable for every element type by the same lines (its list is the only part that could prevent it)."
  },
  {
   "property": "C178",
   "status": "proved",
   "theorems": [
    "C178_returns_weak"
   ],
   "note": "The counterpart of C102_returns_among_others for the memory model of WeakListModel.v: after an exchange that failed the thread has seen the link, so the load after it is not stale. The allocator is outside the model."
  },
  {
   "property": "C179",
   "status": "proved",
   "theorems": [
    "C179_counts",
    "C179_quiet"
   ],
   "note": "Over the model of C122 (WeakInternModel.v with the chunk list of WeakChunkModel.v), for add without the lock as in the code and with it. The count of a slot is that of its last message; between raising a count and writing the value an add is counted too. What is not kept without the lock is which value a held id stands for (C62, C122). Counts do not wrap (C61)."
  },
  {
   "property": "C180",
   "status": "proved",
   "theorems": [
    "C180_returns"
   ],
   "note": "A walk along the chunk list and a push are one step each here; C178 bounds the steps inside them. For the model with sequentially consistent memory see C165. The lock of the locked variant is outside: a call of add begins when it has the lock."
  },
  {
   "property": "C181",
   "status": "partial",
   "theorems": [
    "C181_turns_partial",
    "C181_locked_partial",
    "C181_no_deadlock_partial",
    "C181_finishes_partial",
    "C181_locked_no_deadlock_partial",
    "C181_locked_finishes_partial",
    "C181_refuted"
   ],
   "note": "False as stated (C181_refuted: two threads convert 5*2^64 and 7*2^64 from u128, the second when the first has finished but without having learnt of it; the accesses race, and the second number takes the place of the first). Proved when the threads take turns in making numbers that are not small, the turn being handed over by some synchronisation between calls (C181_turns_partial), and with a lock around add, which the code does not have (C181_locked_partial); clones, drops, reads and small results need no turn. In both cases no thread is ever stuck (with the lock: never all of them) and a thread that goes on again and again finishes (C181_no_deadlock_partial, C181_finishes_partial, C181_locked_no_deadlock_partial, C181_locked_finishes_partial). Further conditions: the interner has at most 2^62 slots and divisors and shift amounts are within the limits of C46, C50 and C51; the result is that of one thread, wrong sums included (see C168_right_values_partial). The programs are those of C168 (C168_same_code); counts do not overflow in the weak memory model; BigInts pass from thread to thread before the evaluations begin only."
  },
  {
   "property": "C182",
   "status": "proved",
   "theorems": [
    "C182_same_code",
    "C182_answers",
    "C182_no_deadlock",
    "C182_finishes"
   ],
   "note": "C182_answers, for any number of threads, any earlier history in turn (in_turn of C122) after which no thread is inside a call, any schedule and any stale reads: right_answer of WeakReadSpec.v gives the answers in terms of the integers alone (known defects of one thread included: C47's order, C49 and C100's signs and saturation, C56's unsigned types). No condition is put on the execution after the questions begin. C182_no_deadlock and C182_finishes: progress; C182_same_code: the programs that the threads execute are, run by one thread, the functions of C42, C47-C49, C56, C100, C107. question_ok excludes what panics for one thread (C56: least value of a signed type in a debug build; C100: i128 from 2^127) and what would call add (bounds of 64- and 128-bit types, results from 2^62 on, shifts), for which C181 applies."
  },
  {
   "property": "C183",
   "status": "partial",
   "theorems": [
    "C183_addition_partial",
    "C183_multiplication_partial",
    "C183_division_partial",
    "C183_bits_partial",
    "C183_refuted"
   ],
   "note": "False as stated (C183_refuted: -7 + 9 is not 9 + -7, and associativity, distributivity, the division identity and the commutativity of & fail as well; the sums are those that C44 shows wrong, the remainder C46's, & C98's). For every law the exact condition under which == answers true is proved, for all integers and stores (C183_addition_partial, C183_multiplication_partial, C183_division_partial, C183_bits_partial): the laws of * and pow, x * y / y, x - x, x + -x, x + 0 and (x << n) >> n hold without conditions on signs (divisions, powers and shifts within the limits of C46, C55 and C51; Minus of zero is left out, C43). + associates exactly if both ways are off by the same amount (same_error), always for numbers of equal sign."
  },
  {
   "property": "C184",
   "status": "partial",
   "theorems": [
    "C184_sums",
    "C184_constants",
    "C184_mul_partial",
    "C184_cmp_partial",
    "C184_abs_partial",
    "C184_panics_partial",
    "C184_div_partial",
    "C184_refuted"
   ],
   "note": "False as stated (C184_refuted: 1.5 * 1.5 = 4.5 with one fraction bit, 1/256 > 1 with eight in two bytes, |-1/2| = 16383.5, and floor and round panic on every value because the shifts of I<K> are todo!()). Proved: + - and negation exact exactly when in range, wrapping otherwise, in every build (C184_sums); ==, zero, bounds and signs (C184_constants); products too large by 2^N, or wrapped (C184_mul_partial); order of numbers of different signs or that differ in one byte (C184_cmp_partial); abs for every value (C184_abs_partial); / and % never panic and satisfy the division identity with the scale lost, modulo 2^(8K-1-N) (C184_div_partial); from_val, one, is_one and all rounding panic on every value (C184_panics_partial)."
  },
  {
   "property": "C185",
   "status": "partial",
   "theorems": [
    "C185_rings",
    "C185_bits",
    "C185_checked_sums",
    "C185_products_partial",
    "C185_division_partial",
    "C185_signed_division_partial",
    "C185_refuted"
   ],
   "note": "False as stated (C185_refuted: with overflow checks 511 * 255 panics while 255 * 511 silently wraps around, a quotient and remainder of U<2> whose sum panics, and -7 / 2 * 2 + -7 % 2 and 7 / -2 * -2 + 7 % -2 in I<2>). Proved: the ring laws for I<N> in every build and for U<N> without overflow checks (C185_rings); the laws of the bit operators and their relations to + and - (C185_bits); sums and differences of U<N> in every build, panics included, and saturating sums (C185_checked_sums); products with overflow checks when the exact products fit (C185_products_partial); the division identity of U<N>: always without overflow checks, whatever the quotient, and with them a or a panic, never another value, and a for divisors up to 128 (C185_division_partial); the division identity of I<N> exactly, by signs: always for non-negative operands, otherwise only for a = -2^(8N-2), or a = 0 or 2^(8N-2) with the right parity of the quotient, or, both negative, for odd quotients (C185_signed_division_partial)."
  },
  {
   "property": "C186",
   "status": "proved",
   "theorems": [
    "C186_matrices",
    "C186_complex",
    "C186_cross",
    "C186_checked_sides"
   ],
   "note": "C186_matrices, C186_complex and C186_cross; C186_checked_sides shows that with overflow checks one side may panic where the other returns (0 * (511 * 255) in U<2>), so that only 'whenever both return' can hold there."
  },
  {
   "property": "C187",
   "status": "partial",
   "theorems": [
    "C187_laws_partial",
    "C187_commutative",
    "C187_neutral",
    "C187_zero",
    "C187_usual_partial",
    "C187_refuted"
   ],
   "note": "False as stated (C187_refuted, with i8 and nothing overflowing: (1/2+1/6)+1/3 is 9/9 and 1/2+(1/6+1/3) is 36/36, which == tells apart; 1/2+1/2 == 1 and (1/2)/(1/2) == 1 are false; 1/3-3/4 is 5/-12 where -(3/4-1/3) is -5/12). Proved: + and * commutative exactly, panics and wrapping included; 0 and 1 neutral exactly for every rational made by new, in every build; x-x and x*0 give 0/1; and for any two expressions of equal value that evaluate without overflow and are not a bare unary minus, == is true when that value is 0 or neither a whole number nor one over a whole number (C187_laws_partial; the usual laws in C187_usual_partial)."
  },
  {
   "property": "C188",
   "status": "partial",
   "theorems": [
    "C188_ring_partial",
    "C188_expressions_partial",
    "C188_one_partial",
    "C188_division",
    "C188_parts",
    "C188_refuted"
   ],
   "note": "False as stated (C188_refuted: with one fraction bit 1.5 * one() is 3, 1.5 / one() is 0.5, 1.5 / 1.5 is 0.5; with overflow checks 127 + 1 + -1 panics where 127 + (1 + -1) is 127). Proved: without overflow checks a commutative ring with unary minus, whose unit is the smallest positive number; one() is neutral for x, under * and under /, exactly if x = 0 or there are no fraction bits, in both builds, and x / x is one() exactly if there are no fraction bits; equal polynomials give equal numbers, always without overflow checks and with them when both sides return; the division identity and trunc + fract in every build, with exactly the operands where / and % panic."
  },
  {
   "property": "C189",
   "status": "proved",
   "theorems": [
    "C189_matrices",
    "C189_complex",
    "C189_cross",
    "C189_checked_sides"
   ],
   "note": "C189_matrices, C189_complex and C189_cross; C189_checked_sides shows that with overflow checks one side may panic where the other returns (0 * (100 * 2) in i8), so that only 'whenever both return' can hold there."
  },
  {
   "property": "C190",
   "status": "proved",
   "theorems": [
    "C190_vectors",
    "C190_matrices",
    "C190_dynamic",
    "C190_conversion",
    "C190_transpose",
    "C190_laws",
    "C190_hash",
    "C190_hash_separates",
    "C190_default"
   ],
   "note": "The derives are modelled as the language defines them: slices by length and then element by element, structs field by field. C190_transpose is for element types that have a value. Specialised comparisons and hash_slice overrides of core for primitive elements are not modelled apart."
  }
 ]
}