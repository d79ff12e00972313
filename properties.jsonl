{"id": "C01", "title": "Limb-vector addition is exact", "statement": "Reading a limb slice as a little-endian number in base 2^B, ElementAdd::add(l, r) and BitwiseAdd::add(l, r) both return a limb vector whose value is exactly value(l)+value(r); no carry is ever lost, whatever the two lengths are.", "quantifier": "all limb widths B>0 (8..128 among them), all pairs of limb slices of any (also different) lengths", "why_tests_cant": "carry chains can be arbitrarily long and the two lengths are independent; a test fixes a handful of lengths and limbs", "anchors": ["crates/bits/src/algos/element/add.rs ElementAdd::add", "crates/bits/src/algos/bitwise/add.rs BitwiseAdd::add"]}
{"id": "C02", "title": "In-place limb addition wraps and reports the carry", "statement": "When the right operand is not longer than the left one, ElementAdd::add_overflowing leaves in the left slice the sum modulo 2^(B*len) and reports overflow exactly when the true sum does not fit; add_checked returns None exactly then, add_wrapping leaves the same residue.", "quantifier": "all widths, all left slices, all right slices with len(right) <= len(left)", "why_tests_cant": "the flag must be right on every one of 2^(2*B*len) operand pairs, including carries that ripple over the whole slice", "anchors": ["crates/bits/src/algos/element/add.rs ElementAdd::add_overflowing/add_checked/add_wrapping"]}
{"id": "C03", "title": "Limb-vector subtraction returns magnitude and sign", "statement": "ElementSub::sub(l, r) and BitwiseSub::sub(l, r) return (m, neg) with value(m) = |value(l)-value(r)| and neg true exactly when value(l) < value(r).", "quantifier": "all widths, all pairs of limb slices (not both empty) of any lengths", "why_tests_cant": "the borrow path is value dependent (the parity of the difference matters), so a few sample differences do not settle it", "anchors": ["crates/bits/src/algos/element/sub.rs ElementSub::sub", "crates/bits/src/algos/bitwise/sub.rs BitwiseSub::sub"]}
{"id": "C04", "title": "In-place limb subtraction wraps and reports the borrow", "statement": "When the right operand is not longer than the left one, ElementSub::sub_overflowing leaves value(l)-value(r) modulo 2^(B*len) and reports overflow exactly when value(l) < value(r); sub_checked is None exactly then; sub_wrapping leaves the same residue.", "quantifier": "all widths, all left slices, all right slices with len(right) <= len(left)", "why_tests_cant": "borrow chains of unbounded length; the flag is a predicate over all operand pairs", "anchors": ["crates/bits/src/algos/element/sub.rs ElementSub::sub_overflowing/sub_checked/sub_wrapping"]}
{"id": "C05", "title": "Limb-vector multiplication is exact", "statement": "ElementMul::mul(l, r) and BitwiseMul::mul(l, r) return limb vectors whose value is exactly value(l)*value(r); the two algorithms therefore agree on every input.", "quantifier": "all widths, all pairs of limb slices of any lengths (not both empty)", "why_tests_cant": "the schoolbook inner carries interact across all limb pairs; only a proof covers every length and every carry pattern", "anchors": ["crates/bits/src/algos/element/mul.rs ElementMul::mul/add_item", "crates/bits/src/algos/bitwise/mul.rs BitwiseMul::mul"]}
{"id": "C06", "title": "In-place limb multiplication is exact modulo the width", "statement": "ElementMul::mul_overflowing / mul_wrapping leave in the left slice value(l)*value(r) modulo 2^(B*len(l)).", "quantifier": "all widths, all left and right slices of any lengths", "why_tests_cant": "the loop overwrites the multiplicand while it is still being read; correctness for every length and value is not testable", "anchors": ["crates/bits/src/algos/element/mul.rs ElementMul::mul_overflowing/mul_wrapping/add_item"]}
{"id": "C07", "title": "Multiplication overflow is reported", "statement": "ElementMul::mul_overflowing reports overflow, and mul_checked returns None, exactly when the product does not fit in the left slice.", "quantifier": "all widths, all left and right slices", "why_tests_cant": "the flag is a predicate over all operand pairs; a suite that only checks a few overflowing products can hit the ones that are reported", "anchors": ["crates/bits/src/algos/element/mul.rs ElementMul::mul_overflowing/mul_checked/add_item"]}
{"id": "C08", "title": "Growing left shift is exact", "statement": "ElementShl::shl(l, s) and BitwiseShl::shl(l, s) return a limb vector of value value(l)*2^s, for every shift amount, also across many limbs.", "quantifier": "all widths, all slices, all shift amounts", "why_tests_cant": "shift amount modulo width and quotient by width interact; infinitely many combinations", "anchors": ["crates/bits/src/algos/element/shl.rs ElementShl::shl", "crates/bits/src/algos/bitwise/shl.rs BitwiseShl::shl"]}
{"id": "C09", "title": "In-place checked left shift is exact modulo the width", "statement": "ElementShl::shl_checked(l, s) returns None exactly when s exceeds the number of bits of l, and otherwise leaves value(l)*2^s modulo 2^(B*len).", "quantifier": "all widths, all slices, all shift amounts", "why_tests_cant": "in-place limb moves depend on the iteration direction for every length/shift combination", "anchors": ["crates/bits/src/algos/element/shl.rs ElementShl::shl_checked/inner_shl_wrap_and_mask"]}
{"id": "C10", "title": "Wrapping left shift reduces the amount only when it is out of range", "statement": "ElementShl::shl_wrapping(l, s) shifts by exactly s whenever s is smaller than the number of bits of l.", "quantifier": "all widths, all slices, all in-range shift amounts", "why_tests_cant": "whether the amount is reduced depends on the bit length of the slice; tests only use power-of-two lengths", "anchors": ["crates/bits/src/algos/element/shl.rs ElementShl::shl_wrapping"]}
{"id": "C11", "title": "Right shift is exact", "statement": "ElementShr::shr(l, s) and BitwiseShr::shr(l, s) return a limb vector of value floor(value(l)/2^s) for every slice and every shift amount, in debug and in release builds.", "quantifier": "all widths, all non-empty slices, all shift amounts, both build profiles", "why_tests_cant": "the index arithmetic underflows for some shift amounts only in some build profiles", "anchors": ["crates/bits/src/algos/element/shr.rs ElementShr::shr", "crates/bits/src/algos/bitwise/shr.rs BitwiseShr::shr"]}
{"id": "C12", "title": "In-place right shift is exact", "statement": "ElementShr::shr_checked / shr_wrapping with an in-range amount s leave floor(value(l)/2^s) in the slice.", "quantifier": "all widths, all slices, all in-range shift amounts", "why_tests_cant": "bits that ought to be cleared at the top are only visible for values with the top bits set", "anchors": ["crates/bits/src/algos/element/shr.rs ElementShr::shr_checked/shr_wrapping/inner_shr_wrap_and_mask"]}
{"id": "C13", "title": "Bitwise and/or/xor/not act on every bit", "statement": "Bit k of the result of ElementBitand/Bitor/Bitxor::bit*(l, r) is the and/or/xor of bit k of the zero-extended operands for every k; ElementNot::not flips every bit within the length and value(not l) = 2^(B*len)-1-value(l).", "quantifier": "all widths, all slices of any two lengths, all bit positions", "why_tests_cant": "statement about every bit position of every pair of slices, with unequal lengths", "anchors": ["crates/bits/src/algos/element/bitand.rs", "crates/bits/src/algos/element/bitor.rs", "crates/bits/src/algos/element/bitxor.rs", "crates/bits/src/algos/element.rs ElementNot::not"]}
{"id": "C14", "title": "Limb comparison agrees with numeric order", "statement": "ElementCmp::cmp(l, r) is Less/Equal/Greater exactly when value(l) is </=/> value(r).", "quantifier": "all widths, all pairs of slices", "why_tests_cant": "the order of two multi-limb numbers depends on the position of the most significant difference, over all pairs", "anchors": ["crates/bits/src/algos/element/cmp.rs ElementCmp::cmp"]}
{"id": "C15", "title": "Limb comparison is a lawful total order consistent with equality", "statement": "ElementCmp::cmp returns Equal exactly when the two slices have the same value (whatever their lengths), swapping the operands reverses the answer, and the relation is transitive, so sorting and Eq/Ord contracts hold.", "quantifier": "all widths, all pairs and triples of slices of any lengths", "why_tests_cant": "the Ord contract quantifies over all triples", "anchors": ["crates/bits/src/algos/element/cmp.rs ElementCmp::cmp"]}
{"id": "C16", "title": "Bit-by-bit long division satisfies the Euclidean law", "statement": "BitwiseDiv::div_long(n, d) with d non-zero returns (q, r) with value(n) = value(q)*value(d)+value(r) and value(r) < value(d).", "quantifier": "all widths, all slices n, all non-zero slices d", "why_tests_cant": "the running remainder crosses limb boundaries only for particular operand pairs; unit tests cover a few quotients", "anchors": ["crates/bits/src/algos/bitwise/div.rs BitwiseDiv::div_long"]}
{"id": "C17", "title": "Limb-by-limb long division terminates and satisfies the Euclidean law", "statement": "ElementDiv::div_long(n, d) with d non-zero terminates and returns (q, r) with value(n) = value(q)*value(d)+value(r) and value(r) < value(d).", "quantifier": "all widths, all slices n, all non-zero slices d", "why_tests_cant": "termination is a property of every operand pair; a test that hangs is only found if the pair is tried", "anchors": ["crates/bits/src/algos/element/div.rs ElementDiv::div_long"]}
{"id": "C18", "title": "Bit reads and writes address exactly one bit", "statement": "After set_bit(i, v) with i in range, get_bit(i) = v, every other bit and the length are unchanged, and the value changes by exactly (v-old)*2^i; out-of-range set_bit/get_bit panic, the _opt/_ignore forms report/ignore and leave the slice untouched.", "quantifier": "all widths, all slices, all bit indices, both bit values", "why_tests_cant": "frame property: every other bit at every index", "anchors": ["crates/bits/src/bit_slice.rs BitSliceExt get_bit/get_bit_opt/set_bit/set_bit_opt/set_bit_ignore/get/set/get_opt/set_opt/set_ignore"]}
{"id": "C19", "title": "Growing writes store what was written", "statement": "After BitVecExt::set_push(i, v), get(i) = v and all other limbs are unchanged (new ones zero); after set_bit_push(i, v), get_bit(i) = v and all other bits are unchanged.", "quantifier": "all widths, all vectors, all indices (also beyond the current length)", "why_tests_cant": "the behaviour depends on whether the index is inside, exactly at, or beyond the end, for every length", "anchors": ["crates/bits/src/bit_slice.rs BitVecExt::set_push/set_bit_push/extend"]}
{"id": "C20", "title": "shrink drops only leading zeros", "statement": "IntSlice::shrink of a non-empty slice or vector keeps the value, returns a prefix of the input, and the result has no zero limb at the top unless it is the single limb of zero; two slices have the same value exactly when their shrunk forms are identical.", "quantifier": "all widths, all non-empty slices", "why_tests_cant": "canonical-form uniqueness is a statement over pairs of arbitrary slices", "anchors": ["crates/bits/src/utils.rs IntSlice::shrink"]}
{"id": "C21", "title": "Bit iteration yields every bit in order", "statement": "iter_bits() yields exactly len*B items, the k-th being bit k of the value, then None for ever.", "quantifier": "all widths, all slices, all positions, any number of next() calls", "why_tests_cant": "index/limb hand-over happens at every limb boundary of slices of any length", "anchors": ["crates/bits/src/bit_slice/iter.rs BitIter::next", "crates/bits/src/bit_slice.rs iter_bits"]}
{"id": "C22", "title": "Bit iterator length hint is exact", "statement": "At every point of the iteration the ExactSizeIterator length / size_hint of iter_bits() equals the number of bits still to come.", "quantifier": "all widths, all slices, every number of items already consumed", "why_tests_cant": "the hint has to be right in every intermediate iterator state", "anchors": ["crates/bits/src/bit_slice/iter.rs BitIter::size_hint/len"]}
{"id": "C23", "title": "Integer/limb-array conversion", "statement": "int_to_arr(v) produces limbs whose value is v whenever v fits the array, and its value modulo the array width otherwise; arr_to_int(a) returns Some(x) only with x = value(a) when converting into an unsigned type.", "quantifier": "all primitive widths for source and limb type, all array lengths, all values", "why_tests_cant": "covers every combination of integer width, limb width and array length", "anchors": ["crates/bits/src/utils.rs int_to_arr/arr_to_int"]}
{"id": "C24", "title": "Widening multiplication is exact", "statement": "widening_mul(a, b, c) = (lo, hi) with lo + 2^B*hi = a*b + c for every unsigned width, including the hand-split 128-bit version.", "quantifier": "all operands a, b, c of each width", "why_tests_cant": "2^384 operand triples for the 128-bit version; intermediate wrapping additions must never wrap", "anchors": ["crates/traits/src/ops/widening.rs WideningMul"]}
{"id": "C25", "title": "U<N> byte conversions round-trip", "statement": "to_le_bytes/from_le_bytes, to_be_bytes/from_be_bytes are mutually inverse, big-endian is the reverse of little-endian, and the value is the base-256 value of the bytes.", "quantifier": "all N, all byte arrays", "why_tests_cant": "holds for every N, every content", "anchors": ["crates/ints/src/u.rs U::from_le_bytes/to_le_bytes/from_be_bytes/to_be_bytes", "crates/bits/src/utils.rs const_reverse"]}
{"id": "C26", "title": "U<N> addition and subtraction", "statement": "For U<N>: in debug builds a+b / a-b return the exact result and panic exactly when it does not fit; in release builds they return it modulo 2^(8N); checked_* return None exactly when it does not fit; saturating_* clamp to MAX / 0; wrapping_*/overflowing forms return the residue.", "quantifier": "all N, all a, b, both build profiles", "why_tests_cant": "every operand pair for every N", "anchors": ["crates/ints/src/u.rs Add/Sub/CheckedAdd/CheckedSub/SaturatingAdd/SaturatingSub for U"]}
{"id": "C27", "title": "U<N> multiplication modulo 2^(8N)", "statement": "In release builds a*b on U<N> is the product modulo 2^(8N); in every build a product that fits is returned exactly by *, checked_mul and saturating_mul and never panics.", "quantifier": "all N, all a, b", "why_tests_cant": "every operand pair for every N", "anchors": ["crates/ints/src/u.rs Mul/CheckedMul/SaturatingMul for U", "crates/bits/src/algos/element/mul.rs"]}
{"id": "C28", "title": "U<N> multiplication detects overflow", "statement": "checked_mul returns None, saturating_mul returns MAX, and * panics in debug builds, whenever the product does not fit in N bytes.", "quantifier": "all N, all a, b whose product does not fit", "why_tests_cant": "every overflowing pair must be caught; tests try one or two", "anchors": ["crates/ints/src/u.rs CheckedMul/SaturatingMul/Mul for U", "crates/bits/src/algos/element/mul.rs mul_overflowing"]}
{"id": "C29", "title": "U<N> division and remainder", "statement": "a / b and a % b on U<N> are the truncated quotient and remainder for b non-zero; division by zero panics, checked_div(0) returns None.", "quantifier": "all N, all a, b", "why_tests_cant": "correctness depends on which bytes of the divisor are non-zero", "anchors": ["crates/ints/src/u.rs Div/Rem/CheckedDiv for U", "crates/bits/src/algos/bitwise/div.rs"]}
{"id": "C30", "title": "U<N> shifts", "statement": "a << s is a*2^s modulo 2^(8N) and a >> s is floor(a/2^s) for every s < 8N.", "quantifier": "all N, all a, all s < 8N, both profiles", "why_tests_cant": "every shift amount with every bit pattern", "anchors": ["crates/ints/src/u.rs Shl/Shr for U", "crates/bits/src/algos/element/shl.rs", "crates/bits/src/algos/element/shr.rs"]}
{"id": "C31", "title": "U<N> ordering is numeric", "statement": "Ord for U<N> compares the numeric values; min_value is the least and max_value the greatest element.", "quantifier": "all N, all a, b", "why_tests_cant": "the defect only shows when low and high bytes disagree", "anchors": ["crates/ints/src/u.rs Ord for U", "crates/bits/src/algos/element/cmp.rs"]}
{"id": "C32", "title": "U<N> bitwise operators", "statement": "&, |, ^ and ! on U<N> act bit by bit; !a = MAX - a.", "quantifier": "all N, all a, b, all bits", "why_tests_cant": "every bit of every value", "anchors": ["crates/ints/src/u.rs BitAnd/BitOr/BitXor/Not for U"]}
{"id": "C33", "title": "U<N> exponentiation", "statement": "a.pow(b) is a^b modulo 2^(8N) in release builds (with 0^0 = 1), for every a and b convertible to usize.", "quantifier": "all N, all a, b", "why_tests_cant": "unbounded exponent", "anchors": ["crates/ints/src/u.rs Pow for U"]}
{"id": "C34", "title": "U<N> to and from primitive integers", "statement": "prim::from_checked(U) is Some(v) exactly when the value fits and never panics; U::from_checked(v) is Some exactly when v fits in N bytes; truncating conversion keeps the low bytes.", "quantifier": "all N, all primitive widths, all values", "why_tests_cant": "all pairs of source and target widths", "anchors": ["crates/ints/src/u.rs impl_unsign_cast"]}
{"id": "C35", "title": "U<N> decimal printing", "statement": "Display of a U<N> prints the decimal representation of its value.", "quantifier": "all N, all values", "why_tests_cant": "every N and value", "anchors": ["crates/ints/src/u.rs write_base/Display for U"]}
{"id": "C36", "title": "I<N> is the two's-complement ring", "statement": "wrapping add, sub, mul and neg on I<N> return the exact integer result reduced modulo 2^(8N) into [-2^(8N-1), 2^(8N-1)).", "quantifier": "all N>=1, all operands", "why_tests_cant": "every operand pair for every N", "anchors": ["crates/ints/src/i.rs WrappingAdd/WrappingSub/WrappingMul/Neg for I"]}
{"id": "C37", "title": "I<N> absolute value", "statement": "abs returns |a| for every a other than MIN.", "quantifier": "all N>=1, all a > MIN", "why_tests_cant": "only negative operands expose the difference", "anchors": ["crates/ints/src/i.rs Signed::abs for I"]}
{"id": "C38", "title": "I<N> ordering is numeric", "statement": "Ord for I<N> compares signed values.", "quantifier": "all N>=1, all a, b", "why_tests_cant": "depends on sign and on disagreement between bytes", "anchors": ["crates/ints/src/i.rs Ord for I"]}
{"id": "C39", "title": "I<N> bounds and sign predicates", "statement": "MIN = -2^(8N-1), MAX = 2^(8N-1)-1, max_negative = -1, zero and one have their values; is_negative/is_positive agree with the value and no value is both.", "quantifier": "all N>=1, all a", "why_tests_cant": "for every N", "anchors": ["crates/ints/src/i.rs Bounded/BoundedSigned/Zero/One/Signed for I"]}
{"id": "C40", "title": "I<N> division and remainder", "statement": "a / b and a % b truncate toward zero with the remainder taking the sign of the dividend.", "quantifier": "all N>=1, all a, non-zero b", "why_tests_cant": "four sign combinations with every magnitude", "anchors": ["crates/ints/src/i.rs Div/Rem for I"]}
{"id": "C41", "title": "BigInt from primitives is exact", "statement": "BigInt::from(v) denotes exactly v for every primitive integer type and every v, and comparing the result for equality with v (same type, unsigned, or signed other than MIN) gives true.", "quantifier": "all primitive integer types, all values", "why_tests_cant": "every value of 12 types, with inline/interned representation switches", "anchors": ["crates/ints/src/big_int/macros.rs impl_from/impl_eq", "crates/ints/src/big_int.rs BigInt::new_slice"]}
{"id": "C42", "title": "BigInt equality is value equality on results of arithmetic", "statement": "Two BigInts built by conversion, parsing, clone or any arithmetic operation other than unary minus compare equal exactly when they denote the same integer, whatever mixture of inline and interned storage is used.", "quantifier": "all pairs of canonical BigInts, all interner states", "why_tests_cant": "relies on a representation invariant over all reachable stores", "anchors": ["crates/ints/src/big_int.rs PartialEq for BigInt/new_slice/new_inline/new_intern"]}
{"id": "C43", "title": "BigInt negation is additive inverse", "statement": "-a denotes the integer -a, and -(0) is equal to 0.", "quantifier": "all BigInts", "why_tests_cant": "boundary at zero with a tagged representation", "anchors": ["crates/ints/src/big_int.rs Neg for BigInt/TaggedOffset::invert_neg"]}
{"id": "C44", "title": "BigInt addition and subtraction are exact", "statement": "a + b and a - b denote the exact integer sum and difference.", "quantifier": "all pairs of BigInts", "why_tests_cant": "failure depends on the parity of the difference and on sign combinations", "anchors": ["crates/ints/src/big_int.rs Add/Sub for &BigInt"]}
{"id": "C45", "title": "BigInt multiplication is exact", "statement": "a * b denotes the exact integer product for all signs and sizes.", "quantifier": "all pairs of BigInts, unbounded size", "why_tests_cant": "unbounded operand sizes", "anchors": ["crates/ints/src/big_int.rs Mul for &BigInt"]}
{"id": "C46", "title": "BigInt division and remainder", "statement": "a / b truncates toward zero and a % b satisfies a = (a/b)*b + a%b with the sign of a, for b non-zero; division by zero panics.", "quantifier": "all pairs of BigInts", "why_tests_cant": "depends on limb boundaries and sign combinations", "anchors": ["crates/ints/src/big_int.rs Div/Rem for &BigInt"]}
{"id": "C47", "title": "BigInt ordering is numeric", "statement": "a < b exactly when the denoted integers are so ordered.", "quantifier": "all pairs of BigInts", "why_tests_cant": "defect only for multi-limb values of equal length", "anchors": ["crates/ints/src/big_int.rs Ord for BigInt"]}
{"id": "C48", "title": "BigInt to unsigned primitives", "statement": "uN::try_from(&a) is Ok(v) exactly when 0 <= a <= uN::MAX, and then v = a; the error says above or below correctly.", "quantifier": "all unsigned primitive types, all BigInts other than a negated zero (see C43)", "why_tests_cant": "unbounded BigInts, range edges of each type", "anchors": ["crates/ints/src/big_int/macros.rs impl_try_from", "crates/bits/src/utils.rs arr_to_int"]}
{"id": "C49", "title": "BigInt to signed primitives", "statement": "iN::try_from(&a) is Ok(a) exactly when a is in range.", "quantifier": "all signed primitive types, all BigInts", "why_tests_cant": "sign handling over the whole range and the MIN edge", "anchors": ["crates/ints/src/big_int/macros.rs impl_try_from", "crates/bits/src/utils.rs arr_to_int"]}
{"id": "C50", "title": "BigInt left shift", "statement": "a << n denotes a*2^n for every 0 <= n < 2^64 and panics for every other n.", "quantifier": "all BigInts a, all n other than a negated zero (see C43)", "why_tests_cant": "unbounded sizes", "anchors": ["crates/ints/src/big_int.rs Shl for &BigInt"]}
{"id": "C51", "title": "BigInt right shift", "statement": "a >> n denotes a divided by 2^n rounded toward zero, for every n >= 0.", "quantifier": "all BigInts a, all n, both profiles", "why_tests_cant": "limb-crossing shifts, build profiles", "anchors": ["crates/ints/src/big_int.rs Shr for &BigInt"]}
{"id": "C52", "title": "BigInt parsing", "statement": "from_str_radix(s, r) for 2 <= r <= 36 returns Ok of the number spelled by s exactly when every character is a digit of that radix (either case), and an error otherwise.", "quantifier": "all strings, all radices", "why_tests_cant": "unbounded strings", "anchors": ["crates/ints/src/big_int.rs FromStrRadix for BigInt"]}
{"id": "C53", "title": "BigInt printing", "statement": "Display prints the canonical decimal representation, with a minus sign for negative values.", "quantifier": "all BigInts", "why_tests_cant": "unbounded values; sign handling", "anchors": ["crates/ints/src/big_int.rs BigInt::write_base/Display"]}
{"id": "C54", "title": "BigInt print/parse round trip", "statement": "Parsing the Display output (or the upper or lower case hexadecimal output after its 0x prefix) of a non-negative BigInt gives back an equal BigInt.", "quantifier": "all non-negative BigInts other than a negated zero (see C43)", "why_tests_cant": "unbounded values", "anchors": ["crates/ints/src/big_int.rs write_base/from_str_radix"]}
{"id": "C55", "title": "BigInt exponentiation", "statement": "a.pow(n) denotes a^n for every a and every n >= 0.", "quantifier": "all BigInts a and n >= 0 other than a negated zero (see C43)", "why_tests_cant": "unbounded exponent and size", "anchors": ["crates/ints/src/big_int.rs Pow for BigInt"]}
{"id": "C56", "title": "BigInt comparison with primitives", "statement": "a == v for a primitive v is true exactly when the denoted integer is v.", "quantifier": "all BigInts, all values of all primitive types", "why_tests_cant": "sign and MIN edge cases", "anchors": ["crates/ints/src/big_int/macros.rs impl_eq"]}
{"id": "C57", "title": "BigInt values never change under other BigInts' lifecycles", "statement": "In any single-threaded history of creating, cloning, computing with and dropping BigInts, every live BigInt keeps denoting the integer it was created with, no read ever hits a freed slot, and the store keeps a slot alive exactly while some live BigInt refers to it.", "quantifier": "all finite histories of operations, all values", "why_tests_cant": "aliasing through reused interner slots appears only in particular histories", "anchors": ["crates/ints/src/big_int.rs Clone/Drop/new_intern/with_slice", "crates/utils/src/intern.rs Interner"]}
{"id": "C58", "title": "Dropping every BigInt releases every slot, and storage stays bounded by peak use", "statement": "After all BigInts of a history are dropped every reference count is zero, and the number of 32-slot chunks never exceeds one plus the peak number of simultaneously live interned values.", "quantifier": "all finite histories", "why_tests_cant": "leaks show only in long histories", "anchors": ["crates/utils/src/intern.rs Interner::add/decr/find", "crates/ints/src/big_int.rs Drop"]}
{"id": "C59", "title": "Interner stores and returns values", "statement": "In a sequential history, the id returned by Interner::add(v) yields v from get/try_get as long as more incr/add than decr calls have been made on it; try_get of a dead or unused id is None; add of any value never changes the value of another live id.", "quantifier": "all finite sequential histories in which no id ever has 2^64 - 1 references at once, all values", "why_tests_cant": "slot reuse depends on the order of operations", "anchors": ["crates/utils/src/intern.rs Interner::add/incr/decr/try_get/get"]}
{"id": "C60", "title": "Interner deduplicates live values", "statement": "Adding a value that is already live returns the same id.", "quantifier": "all finite sequential histories", "why_tests_cant": "depends on which slots died before", "anchors": ["crates/utils/src/intern.rs Interner::add/find"]}
{"id": "C61", "title": "Interner reference counting under concurrency", "statement": "Under every interleaving of concurrent add/incr/decr calls, the reference count of each slot equals the number of handles handed out for it and not yet released, and never underflows; every id ever returned is in range.", "quantifier": "all numbers of threads, all schedules, all operation sequences (of any length) in which no id ever has 2^64 - 1 references at once", "why_tests_cant": "schedules are not enumerable by tests", "anchors": ["crates/utils/src/intern.rs InternerNode::incr/decr, Interner::add"]}
{"id": "C62", "title": "Concurrent interner adds do not clobber each other", "statement": "Under every interleaving, the id returned by add(v) holds v while the handle is live.", "quantifier": "all schedules", "why_tests_cant": "needs a specific interleaving between find and set_val", "anchors": ["crates/utils/src/intern.rs Interner::add/find, InternerNode::set_val"]}
{"id": "C63", "title": "Concurrent list pushes are never lost", "statement": "Under every interleaving of UnsyncLinked::push calls, every finished push's value is in the list exactly once, values already in the list keep their position, and the list is never cyclic.", "quantifier": "all numbers of threads, all schedules", "why_tests_cant": "schedules are not enumerable by tests", "anchors": ["crates/utils/src/linked.rs UnsyncLinked::push/tail, Node::set_next"]}
{"id": "C64", "title": "push returns the position of the pushed element", "statement": "The length returned by UnsyncLinked::push is one more than the index where the value can be read.", "quantifier": "all schedules", "why_tests_cant": "needs contention between tail search and append", "anchors": ["crates/utils/src/linked.rs UnsyncLinked::push/tail"]}
{"id": "C65", "title": "List reads are stable", "statement": "Under every interleaving get(i) returns the i-th pushed value once the list is longer than i, and iteration yields a prefix of the final list that contains everything pushed before it started.", "quantifier": "all schedules, all indices", "why_tests_cant": "schedules are not enumerable by tests", "anchors": ["crates/utils/src/linked.rs UnsyncLinked::get/iter/len"]}
{"id": "C66", "title": "gcd of primitives", "statement": "Gcd::gcd(a, b) on primitive integers returns a value whose absolute value is the greatest common divisor, terminates for all inputs, is non-negative and never panics for unsigned types.", "quantifier": "all widths, all pairs (a, b)", "why_tests_cant": "termination and divisibility over all pairs", "anchors": ["crates/traits/src/__impl.rs Gcd impl (gcd)"]}
{"id": "C67", "title": "gcd never panics on signed primitives", "statement": "Gcd::gcd(a, b) on signed primitives returns normally and non-negative for all inputs.", "quantifier": "all signed widths, all pairs", "why_tests_cant": "single failing pairs at the type's edge", "anchors": ["crates/traits/src/__impl.rs Gcd impl (gcd)"]}
{"id": "C68", "title": "Saturating conversions clamp", "statement": "FromSaturating between any two supported primitive types returns the source value clamped to the target's range.", "quantifier": "all supported (source, target) pairs, all values, all pointer widths", "why_tests_cant": "a hundred type pairs times all values", "anchors": ["crates/traits/src/__impl.rs from_saturating impls"]}
{"id": "C69", "title": "Truncating and checked conversions", "statement": "FromChecked returns Some(v) exactly when v is in the target's range; FromTruncating returns the unique target value congruent to v modulo 2^bits.", "quantifier": "all supported pairs, all values", "why_tests_cant": "all values", "anchors": ["crates/traits/src/__impl.rs FromChecked/FromTruncating impls", "crates/traits/src/cast.rs"]}
{"id": "C70", "title": "Checked shifts of primitives reject out-of-range amounts", "statement": "checked_shl / checked_shr on a primitive return None exactly when the amount is negative or at least the bit width, and the shifted value otherwise.", "quantifier": "all widths, all values, all amounts", "why_tests_cant": "amounts beyond 32 bits are never tried", "anchors": ["crates/traits/src/__impl.rs CheckedShl/CheckedShr impls"]}
{"id": "C71", "title": "Integer power of primitives", "statement": "Pow::pow(a, n) on primitives returns a^n when it fits, in every build.", "quantifier": "all widths, all a, n >= 0", "why_tests_cant": "exponents beyond 32 bits are never tried", "anchors": ["crates/traits/src/__impl.rs Pow impls"]}
{"id": "C72", "title": "Wrapping operations of primitives", "statement": "WrappingAdd/WrappingSub/WrappingMul/... on primitives return the exact result modulo 2^bits.", "quantifier": "all widths, all operands", "why_tests_cant": "all operands", "anchors": ["crates/traits/src/__impl.rs Wrapping* impls"]}
{"id": "C73", "title": "Identity predicates", "statement": "is_zero/is_one return true exactly for the numbers zero and one, also on NonZero types.", "quantifier": "all widths, all values", "why_tests_cant": "all values", "anchors": ["crates/traits/src/__impl.rs Zero/One impls", "crates/traits/src/__impl/nz.rs"]}
{"id": "C74", "title": "Factorial", "statement": "factorial(n) returns n! whenever it fits.", "quantifier": "all widths, all n >= 0", "why_tests_cant": "all n", "anchors": ["crates/traits/src/__impl.rs Factorial impls"]}
{"id": "C75", "title": "Fixed-point addition, subtraction, negation and order are exact", "statement": "For Fixed<T,N>, + - and unary minus denote exact real addition/subtraction/negation of raw/2^N whenever the result fits, otherwise they panic (debug); comparison orders the denoted reals.", "quantifier": "all integer widths, all N, all raw values", "why_tests_cant": "all values", "anchors": ["crates/reals/src/fixed.rs Add/Sub/Neg/PartialOrd for Fixed"]}
{"id": "C76", "title": "Fixed-point multiplication and division", "statement": "a * b denotes the real product rounded to the grid and one() * a = a.", "quantifier": "all N, all raw values", "why_tests_cant": "all values; N=0 hides the missing rescale", "anchors": ["crates/reals/src/fixed.rs Mul/Div for Fixed"]}
{"id": "C77", "title": "Fixed-point floor, ceil, trunc and fract", "statement": "floor is the greatest whole value <= x, ceil the least whole value >= x, trunc rounds toward zero, x = trunc(x)+fract(x) with |fract| < 1; is_whole holds exactly for whole values (absent overflow).", "quantifier": "all widths, all N with 1 representable, all raw values", "why_tests_cant": "all values, both signs", "anchors": ["crates/reals/src/fixed.rs Real for Fixed"]}
{"id": "C78", "title": "Fixed-point round", "statement": "round returns a nearest whole value.", "quantifier": "all N, all raw values", "why_tests_cant": "depends on the size of the fraction", "anchors": ["crates/reals/src/fixed.rs Real::round for Fixed"]}
{"id": "C79", "title": "Rational arithmetic is exact", "statement": "For Rat<T>, + - * / and unary minus denote exact rational arithmetic whenever the intermediate products fit, Rat::new(n, d) denotes n/d and is None exactly for d = 0, and no denominator is ever zero (division panics/propagates only for zero divisors).", "quantifier": "all integer types, all numerators and denominators", "why_tests_cant": "all values and all gcd shapes", "anchors": ["crates/reals/src/rat.rs Rat::new/reduce/Add/Sub/Mul/Div/Neg"]}
{"id": "C80", "title": "Equal rationals compare equal", "statement": "Two Rat values denoting the same rational number are ==.", "quantifier": "all numerators and denominators", "why_tests_cant": "depends on divisibility between numerator and denominator", "anchors": ["crates/reals/src/rat.rs Rat::reduce, derived PartialEq"]}
{"id": "C81", "title": "Rational rounding", "statement": "floor rounds toward zero (as documented by the trait), ceil away from zero, round to the nearest integer.", "quantifier": "all numerators, all non-zero denominators", "why_tests_cant": "whole values and negative values behave differently", "anchors": ["crates/reals/src/rat.rs Real for Rat"]}
{"id": "C82", "title": "Rational sign predicates", "statement": "is_negative/is_positive and abs agree with the sign of the denoted rational.", "quantifier": "all numerators and denominators", "why_tests_cant": "negative denominators", "anchors": ["crates/reals/src/rat.rs Signed for Rat"]}
{"id": "C83", "title": "Posit negation keeps zero and NaR", "statement": "-x is an involution on P<N>, and zero and NaR are fixed by it.", "quantifier": "all N, all bit patterns", "why_tests_cant": "all patterns", "anchors": ["crates/reals/src/p.rs Neg/is_nar for P"]}
{"id": "C84", "title": "Static iterators visit each index exactly once, in order", "statement": "collect, fold, try_fold, any, all, sum and product call the source's idx for indices 0,1,2,... without repetition or gap, never out of range, and stop early only where documented, so moving elements out of an array never moves one twice.", "quantifier": "all lengths N, all adapter stacks of map/zip/enumerate, all closures (with state)", "why_tests_cant": "the unsafe contract must hold for every adapter stack and early exit point", "anchors": ["crates/static-iter/src/lib.rs StaticIter/FromStaticIter", "crates/static-iter/src/adapter.rs", "crates/static-iter/src/array.rs IntoIter"]}
{"id": "C85", "title": "Collecting into Option/Result", "statement": "Collecting into Option<[T;N]> / Result<[T;N],E> gives Some/Ok of all elements in order when every item is Some/Ok, and otherwise None / the first error.", "quantifier": "all N, all item sequences", "why_tests_cant": "position of first failure is arbitrary", "anchors": ["crates/static-iter/src/lib.rs FromStaticIter for Option/Result"]}
{"id": "C86", "title": "Vector arithmetic is element-wise", "statement": "+, -, *, / and % between Vectors (and between a Vector and a scalar, also in assigning form) act element-wise and panic exactly when an element operation does; checked_add/checked_sub return Some exactly when every element operation succeeds; dot_product is the sum of products; is_zero holds exactly for all-zero vectors.", "quantifier": "all dimensions, all element types and values", "why_tests_cant": "every dimension", "anchors": ["crates/compounds/src/vector.rs"]}
{"id": "C87", "title": "Cross product laws", "statement": "cross(a, b) is orthogonal to a and b, anticommutative, and satisfies the Jacobi and Lagrange identities over any commutative ring.", "quantifier": "all 3-vectors over any commutative ring", "why_tests_cant": "algebraic identity over all elements", "anchors": ["crates/compounds/src/vector.rs Vector::cross_product"]}
{"id": "C88", "title": "Matrix transpose, identity and product laws", "statement": "transpose is an involution exchanging indices; the matrix product is the row-by-column sum, associative, distributive, has one() as identity, and transposes as (AB)^T = B^T A^T over any commutative ring.", "quantifier": "all dimensions (inner dimension >= 1), all commutative rings", "why_tests_cant": "every dimension", "anchors": ["crates/compounds/src/matrix/static.rs"]}
{"id": "C89", "title": "Determinant by elimination is the determinant", "statement": "determinant() of a square matrix over an exact ordered field equals the Leibniz determinant, for every size, singular matrices included.", "quantifier": "all sizes N, all matrices over any field", "why_tests_cant": "every size and every pivot pattern", "anchors": ["crates/compounds/src/matrix/static.rs Matrix::determinant", "crates/compounds/src/matrix/macros.rs gauss_elim"]}
{"id": "C90", "title": "Row reduction works for every shape", "statement": "row_reduce of a ROWxCOL matrix returns an echelon form of it for every shape and never panics.", "quantifier": "all shapes, all matrices over a field", "why_tests_cant": "non-square shapes", "anchors": ["crates/compounds/src/matrix/macros.rs gauss_elim", "crates/compounds/src/matrix/dynamic.rs DynMatrix", "crates/compounds/src/matrix/static.rs"]}
{"id": "C91", "title": "Matrix indexing rejects out-of-range positions", "statement": "Reading (i, j) from DynMatrix, MatrixRef or MatrixMut returns the element stored at row i column j, and panics when i >= rows or j >= cols; no read leaves the buffer.", "quantifier": "all shapes, all index pairs", "why_tests_cant": "every shape and index", "anchors": ["crates/compounds/src/matrix/dynamic.rs Index", "crates/compounds/src/matrix/refs.rs Index/IndexMut"]}
{"id": "C92", "title": "Swapping rows exchanges exactly two rows", "statement": "swap_rows(a, b) exchanges rows a and b and leaves all other entries alone, for static and dynamic matrices; the determinant changes sign when a and b differ.", "quantifier": "all shapes, all row pairs", "why_tests_cant": "frame property over all entries", "anchors": ["crates/compounds/src/matrix/dynamic.rs swap_rows", "crates/compounds/src/matrix/static.rs swap_rows"]}
{"id": "C93", "title": "Complex numbers form a field", "statement": "+, -, *, / on Complex over a field satisfy the field laws, with (a/b)*b = a whenever b has non-zero squared modulus; scalar operands act as real numbers, i squares to -1 and abs_squared is multiplicative.", "quantifier": "all fields, all complex values", "why_tests_cant": "algebraic identity over all values", "anchors": ["crates/compounds/src/complex.rs"]}
{"id": "C94", "title": "Bivector component count and wedge product", "statement": "choose_n(n, r) is the binomial coefficient C(n, r); the wedge product of two DIM-vectors produces exactly C(DIM, 2) components a_i*b_j - a_j*b_i for i<j in order, so construction never panics; wedge is alternating.", "quantifier": "all n, r and DIM (absent usize overflow), all rings", "why_tests_cant": "every dimension", "anchors": ["crates/compounds/src/bivec.rs choose_n/BiVector::new/wedge"]}
{"id": "C95", "title": "Leading and trailing zero counts of primitives", "statement": "BoundedBit::leading_zeros(v) and trailing_zeros(v) return, in the type itself, the number of zero bits above the highest set bit and below the lowest set bit of v's bit pattern (the full width when v is 0).", "quantifier": "all twelve primitive types, all pointer widths, all values", "why_tests_cant": "every value of every width, including negative values and the cast of the count back into the type", "anchors": ["crates/traits/src/__impl.rs BoundedBit impls"]}
{"id": "C96", "title": "Sign predicates and absolute value of primitives", "statement": "On signed primitives is_negative(v) holds exactly when v < 0, is_positive(v) exactly when v >= 0 (as documented) and abs(v) is |v|.", "quantifier": "all signed widths, all values", "why_tests_cant": "zero and the minimum are single values among 2^bits", "anchors": ["crates/traits/src/__impl.rs Signed impls", "crates/traits/src/class.rs Signed"]}
{"id": "C97", "title": "Overflowing and checked arithmetic of primitives", "statement": "overflowing_add/sub/mul return the exact result modulo 2^bits and report overflow exactly when it does not fit; checked_add/sub/mul/div return the exact result exactly when it fits (and the divisor is not 0).", "quantifier": "all widths, signed and unsigned, all operands", "why_tests_cant": "all operand pairs of every width", "anchors": ["crates/traits/src/__impl.rs Overflowing*/Checked* impls"]}
{"id": "C98", "title": "BigInt bitwise operators", "statement": "a & b, a | b and a ^ b denote the bitwise and, or and exclusive or of the integers (negative ones read as two's complement), and !a denotes -a-1.", "quantifier": "all pairs of BigInts", "why_tests_cant": "operands of any size, mixed signs and mixed storage", "anchors": ["crates/ints/src/big_int.rs bitand/bitor/bitxor/Not"]}
{"id": "C99", "title": "Saturating conversion of BigInts", "statement": "saturate_from(a) is a clamped to the range of the primitive type.", "quantifier": "all primitive types, all BigInts", "why_tests_cant": "every value, and the boundary is where the internal comparison changes", "anchors": ["crates/ints/src/big_int/macros.rs FromSaturating"]}
{"id": "C100", "title": "Truncating conversion of BigInts", "statement": "truncate_from(a) is a modulo 2^bits, read in the primitive type.", "quantifier": "all primitive types, all BigInts", "why_tests_cant": "every value of unbounded size", "anchors": ["crates/ints/src/big_int/macros.rs FromTruncating"]}
{"id": "C101", "title": "Reading through a live handle in a shared interner", "statement": "Under every interleaving, get through an id that has been obtained from add or incr and not yet given back with decr returns a value: it never panics and never reads a slot that holds no value.", "quantifier": "all numbers of threads, all interleavings of add, incr, decr and get in which no id ever has 2^64 - 1 references at once", "why_tests_cant": "the window between taking a reference and writing the value is a few instructions wide", "anchors": ["crates/utils/src/intern.rs try_get, add, decr"]}
{"id": "C102", "title": "No call on the shared list blocks", "statement": "Whatever the other threads were doing when they were interrupted, a push, get, iteration, len or is_empty that is left to run alone returns after finitely many steps. Even when the other threads keep running, it returns within 3n+2 steps of its own thread, where n is the number of elements the list has reached by then.", "quantifier": "all numbers of threads, all reachable states, all continuations of the schedule", "why_tests_cant": "needs every position at which the other threads can be interrupted", "anchors": ["crates/utils/src/linked.rs push, get, tail, Iter::next"]}
{"id": "C103", "title": "Byte conversions of F<N>", "statement": "from/to_le_bytes, from/to_be_bytes and from/to_ne_bytes round-trip, and the big-endian form is the reverse of the little-endian one.", "quantifier": "all N, all byte arrays, both endiannesses", "why_tests_cant": "all arrays of every length", "anchors": ["crates/reals/src/f.rs F::from_le_bytes .. to_ne_bytes"]}
{"id": "C104", "title": "Debug text of fixed-point numbers", "statement": "Formatting a Fixed<T,N> with {:?} prints the exact decimal expansion of its value (when the intermediate product fits).", "quantifier": "all integer types, all N, all raw values", "why_tests_cant": "small fractions, zero and negative values take different paths", "anchors": ["crates/reals/src/fixed.rs Debug for Fixed"]}
{"id": "C105", "title": "BigInt constants, sign predicates and absolute value", "statement": "zero() and one() denote 0 and 1; is_zero, is_one, is_positive (>= 0) and is_negative answer for the number; abs denotes |a| and is never a negated zero; a BigInt is inline exactly when its magnitude is below 2^62.", "quantifier": "all BigInts, all interner states", "why_tests_cant": "zero, negated zero and the inline limit are single values among unboundedly many", "anchors": ["crates/ints/src/big_int.rs Zero, One, Signed, is_inline, is_interned"]}
{"id": "C106", "title": "BigInt as a float", "statement": "approx_float() returns a double close to the number (relative error at most 2^-51, exact below 2^53), with the sign of the number, and the infinity of that sign when the number is too large.", "quantifier": "all BigInts", "why_tests_cant": "every length of the number and every limb pattern; rounding at each step", "anchors": ["crates/ints/src/big_int.rs BigInt::approx_float"]}
{"id": "C107", "title": "Binary formatting of BigInt", "statement": "format!(\"{:b}\", a) is a minus sign for negative a, then 0b, then the binary digits of the magnitude, most significant first, padded to whole 64-bit limbs; the digits parse back to the magnitude.", "quantifier": "all BigInts other than a negated zero", "why_tests_cant": "numbers of every length", "anchors": ["crates/ints/src/big_int.rs Binary for BigInt"]}
{"id": "C108", "title": "Constants, bounds and signs of fixed-point numbers", "statement": "For Fixed<T,N>: zero() is 0 and one() is 1, is_zero and is_one answer for the number; min_value and max_value bound every value; min_positive is the least positive and max_negative the greatest negative value; abs is the absolute value, is_negative means < 0 and is_positive means >= 0.", "quantifier": "all integer types, all N, all raw values", "why_tests_cant": "representability of 1 depends on T and N; bounds quantify over all values", "anchors": ["crates/reals/src/fixed.rs Zero, One, Bounded, BoundedSigned, Signed"]}
{"id": "C109", "title": "Constants and bounds of rationals", "statement": "Rat::zero() is 0 and Rat::one() is 1; is_zero and is_one answer for the number; every fraction that Rat::new returns lies between min_value and max_value; Rat::new(v, 1) is v.", "quantifier": "all integer types, all numerators and denominators", "why_tests_cant": "bounds quantify over all fractions", "anchors": ["crates/reals/src/rat.rs Zero, One, Bounded, new"]}
{"id": "C110", "title": "Bounds of integers and of NonZero integers", "statement": "min_value and max_value are values and bound every value; for NonZero types no constant and no result of abs is ever zero, abs is the absolute value when representable, min_positive and max_negative are the least positive and greatest negative values, is_positive and is_negative are right.", "quantifier": "all widths, signed and unsigned, all values", "why_tests_cant": "a NonZero holding 0 is undefined behaviour; the overflowing case is a single value", "anchors": ["crates/traits/src/__impl.rs Bounded", "crates/traits/src/__impl/nz.rs"]}
{"id": "C111", "title": "Byte conversions of primitive numbers", "statement": "to_le_bytes lists the base-256 digits of the (two's complement or IEEE) bit pattern, least significant first; to_be_bytes is its reverse, to_ne_bytes the one of the target; each from_*_bytes undoes its to_*_bytes, and conversely.", "quantifier": "all sizes, all values, all byte arrays, both endiannesses", "why_tests_cant": "all values of every width", "anchors": ["crates/traits/src/__impl.rs impl_bytes!"]}
{"id": "C112", "title": "Bounds, signs and constants of floats", "statement": "min_value and max_value bound every finite float; min_positive is the least value above 0 and max_negative the greatest below; zero() and one() are 0 and 1; is_zero, is_one, is_negative (< 0) and is_positive (>= 0) are right on every number, also on -0, and are right on infinities and false on NaN; abs is the absolute value.", "quantifier": "all IEEE formats, all bit patterns including NaN, infinities, subnormals and -0", "why_tests_cant": "2^64 patterns", "anchors": ["crates/traits/src/__impl.rs impl_float!"]}
{"id": "C113", "title": "Integers to floats", "statement": "saturate_from(v) is a float nearest to v, exact for integers of at most 24 (f32) or 53 (f64) bits, monotone, and never infinite.", "quantifier": "all integer types and values, f32 and f64", "why_tests_cant": "ties, carries out of the significand and the overflow threshold are isolated values", "anchors": ["crates/traits/src/__impl.rs saturating_as! into f32 and f64"]}
{"id": "C114", "title": "Floats to integers", "statement": "saturate_from(x) is the representable integer nearest to x; infinities give MIN and MAX, NaN gives 0; integers of at most 24 (f32) or 53 (f64) bits survive the round trip through the float.", "quantifier": "all bit patterns of all IEEE formats, all integer types", "why_tests_cant": "2^64 patterns times the integer types", "anchors": ["crates/traits/src/__impl.rs saturating_as! from f32 and f64", "crates/traits/src/cast.rs FromSaturating"]}
{"id": "C115", "title": "Bitwise operators of I", "statement": "For I<N>, a & b, a | b, a ^ b and !a are the bitwise operations on the numbers seen as infinite two's complement strings; !a = -a - 1.", "quantifier": "all N >= 1, all pairs of values", "why_tests_cant": "sign extension matters for every combination of signs and every width", "anchors": ["crates/ints/src/i.rs BitAnd, BitOr, BitXor, Not"]}
{"id": "C116", "title": "Construction and access of vectors", "statement": "Vector::scalar repeats its argument; from_array and into_array are inverse; x, y, z, w and set_x .. set_w read and write the one coordinate; indexing out of range panics and writing changes one element only; into_row and into_column keep every element; distance2 is the sum of squared differences, symmetric, zero on equal points and unchanged by translation.", "quantifier": "all dimensions, all element types, all commutative rings for distance2", "why_tests_cant": "dimension-generic code, one instance per N", "anchors": ["crates/compounds/src/vector.rs Vector"]}
{"id": "C117", "title": "Construction of matrices from rows and columns, and the diagonal", "statement": "from_rows puts vector i in row i; from_columns puts vector j in column j (the transpose of from_rows); diag lists the elements (i, i).", "quantifier": "all shapes, all element types", "why_tests_cant": "shape-generic code; row/column exchanges are invisible on square symmetric samples", "anchors": ["crates/compounds/src/matrix/static.rs from_rows, from_columns, diag"]}
{"id": "C118", "title": "Dropping the shared list", "statement": "Whatever threads did with the list before, dropping it when no call is in progress frees every node that was ever allocated exactly once and drops exactly the pushed values; list[i] is the i-th pushed value, or a panic when there are not so many.", "quantifier": "all programs, all numbers of threads, all interleavings", "why_tests_cant": "a node lost by a racing push leaks only under particular interleavings", "anchors": ["crates/utils/src/linked.rs Drop for UnsyncLinked, Index for UnsyncLinked"]}
{"id": "C119", "title": "The shared list has no data race", "statement": "However threads use one shared list, with reads as stale as the memory orderings of its accesses allow, no thread reads a node whose initialisation does not happen before the read, and no null pointer is followed.", "quantifier": "all programs of push, len, is_empty, get and iteration, all numbers of threads, all interleavings, all stale reads allowed by release/acquire/relaxed views", "why_tests_cant": "a missing acquire shows only on weakly ordered hardware or after compiler reordering; tests run on one machine", "anchors": ["crates/utils/src/linked.rs UnsyncLinked, Node"]}
{"id": "C120", "title": "Visibility of pushes to other threads", "statement": "Under weak memory: the list always holds exactly the values of the pushes that returned, in that order; every answer describes a first part of the list containing at least the elements the calling thread pushed itself, was shown before, or synchronised with; a thread finds its own push, and that of a thread it has synchronised with, at the position it was pushed to.", "quantifier": "all programs in which len is called only by threads that know of an element (calls by others have the race of C119), all numbers of threads, all interleavings, all stale reads allowed by release/acquire/relaxed views", "why_tests_cant": "stale reads do not occur on demand", "anchors": ["crates/utils/src/linked.rs UnsyncLinked"]}
{"id": "C121", "title": "Rounding floats to whole numbers", "statement": "For f32 and f64 as Real: floor rounds toward 0, ceil away from 0, trunc toward negative infinity, round to a nearest whole number (as the trait documents); the results are exact whole floats with the sign bit kept; fract(x) is exactly x minus x rounded toward zero; NaN and infinities are unchanged (fract gives NaN).", "quantifier": "all bit patterns of all IEEE formats", "why_tests_cant": "2^64 patterns; exactness near 2^24 and 2^53, subnormals and signed zeros", "anchors": ["crates/traits/src/__impl.rs impl Real for f32 and f64", "crates/traits/src/class.rs Real"]}
{"id": "C122", "title": "The shared interner has no data race", "statement": "However threads use one shared interner, with reads as stale as the memory orderings of its accesses allow, no two unordered accesses to the value of a slot happen of which one is a write, and get through a held id returns the value the id was obtained for.", "quantifier": "all numbers of threads, all interleavings of add, incr, decr and get through ids the caller holds, all stale reads allowed by release/acquire/relaxed views", "why_tests_cant": "a write after the releasing increment is ordered on strongly ordered hardware, and tests run on one machine", "anchors": ["crates/utils/src/intern.rs Interner::add, find, set_val, try_get, incr, decr"]}
{"id": "C123", "title": "References and ids of the interner in safe code", "statement": "A reference returned by get denotes the same value as long as it may be used (as long as the interner exists), and get of an id whose count is not zero finds a value, whatever ids the safe methods are called with.", "quantifier": "all finite sequential histories, all ids, all values", "why_tests_cant": "histories that free a slot while a reference is kept, or use an id that add never returned", "anchors": ["crates/utils/src/intern.rs Interner::get, try_get, incr, decr, add"]}
{"id": "C124", "title": "Bitwise addition in place", "statement": "left.add_in_place(right) stores the sum of the two numbers, modulo 2^(bits of left), in left.", "quantifier": "all limb widths, all slices", "why_tests_cant": "whether some operand survives the loop bound cannot be settled by examples", "anchors": ["crates/bits/src/algos/bitwise/add.rs add_in_place"]}
{"id": "C125", "title": "BigInt's order is lawful", "statement": "cmp never panics, is Equal exactly for equal numbers, is antisymmetric and transitive, so BigInts can be sorted and used as keys of ordered maps.", "quantifier": "all triples of BigInts in all reachable interner states", "why_tests_cant": "transitivity over triples of arbitrary size", "anchors": ["crates/ints/src/big_int.rs Ord for BigInt"]}
{"id": "C126", "title": "Swapping rows that do not exist is rejected", "statement": "swap_rows(a, b) of a dynamic matrix panics when a or b is not a row.", "quantifier": "all shapes, all pairs of 64-bit indices, builds with and without overflow checks", "why_tests_cant": "index arithmetic wraps only for indices near 2^64 / columns", "anchors": ["crates/compounds/src/matrix/dynamic.rs swap_rows"]}
{"id": "C127", "title": "Powers, roots and logarithms of floats", "statement": "In exact arithmetic: pow by a whole number is repeated multiplication; sqrt, cbrt and root return the number whose power is the argument whenever there is one; log(x, b) is the exponent with b^log = x.", "quantifier": "all real numbers, all degrees", "why_tests_cant": "real identities; trait defaults are only exercised at a few points", "anchors": ["crates/traits/src/class.rs Real::root, sqrt, cbrt", "crates/traits/src/__impl.rs impl_float Pow, log, sqrt"]}
{"id": "C128", "title": "Reciprocal trigonometric functions", "statement": "In exact arithmetic: csc, sec and cot are the multiplicative inverses of sin, cos and tan wherever those are defined and not zero; sec^2 = 1 + tan^2 and csc^2 = 1 + cot^2.", "quantifier": "all real angles", "why_tests_cant": "identities over all reals", "anchors": ["crates/traits/src/__impl.rs TrigOps for floats"]}
{"id": "C129", "title": "Distance is a metric", "statement": "In exact arithmetic: Vector::distance is non-negative, symmetric, zero exactly for equal vectors and satisfies the triangle inequality; Complex::abs is multiplicative and satisfies the triangle inequality.", "quantifier": "all dimensions, all real vectors and complex numbers", "why_tests_cant": "inequalities over all reals and dimensions", "anchors": ["crates/compounds/src/vector.rs distance, distance_squared", "crates/compounds/src/complex.rs abs, abs_squared"]}
{"id": "C130", "title": "Fixed-point numbers over U<K>: sums, rounding down and up", "statement": "Fixed<U<K>, N>: from_val(v) denotes v when it fits and one() denotes 1; + and - are exact, and a result that is not representable panics with overflow checks and wraps without; floor and ceil are the greatest whole number not above and the least not below; is_whole holds exactly for whole numbers.", "quantifier": "all byte counts K, all N that U<K> can shift by, all values, builds with and without overflow checks", "why_tests_cant": "the right shift of U<K> leaves wrong bits behind; that floor is right regardless is a fact about all values", "anchors": ["crates/reals/src/fixed.rs Fixed::from_val, floor, ceil, is_whole, Add, Sub", "crates/ints/src/u.rs Shl, Shr"]}
{"id": "C131", "title": "Fixed-point numbers over U<K>: order, products, fractional parts and nearest rounding", "statement": "Fixed<U<K>, N>: cmp orders by value; * is the product; fract lies in [0, 1) and trunc + fract is the value; round is a nearest whole number.", "quantifier": "all byte counts K, all N, all values", "why_tests_cant": "depends on division and comparison for all operands of all widths", "anchors": ["crates/reals/src/fixed.rs Mul, Ord, fract, trunc, round", "crates/ints/src/u.rs Rem, Ord"]}
{"id": "C132", "title": "Fixed-point numbers over BigInt: conversion, equality and sign", "statement": "Fixed<BigInt, N>: from_val(v) denotes v for every BigInt v, zero() denotes 0 and one() denotes 1; == , is_zero and is_one compare the denoted numbers; neg, abs, is_negative and is_positive are those of the denoted number; no other live BigInt is changed.", "quantifier": "all N below 2^64, all values, all reachable interner states, builds with and without overflow checks", "why_tests_cant": "unbounded values; every intermediate result goes through the shared interner", "anchors": ["crates/reals/src/fixed.rs Fixed::from_val, zero, one, PartialEq, Neg, Signed", "crates/ints/src/big_int.rs"]}
{"id": "C133", "title": "Fixed-point numbers over BigInt: arithmetic and rounding", "statement": "Fixed<BigInt, N>: + - * / and % are those of the denoted numbers and cmp orders by value; floor, ceil, round and trunc are the greatest whole number not above, the least not below, a nearest one and the one toward zero; trunc + fract is the value; none of them panics.", "quantifier": "all N below 2^64, all values, all reachable interner states, builds with and without overflow checks", "why_tests_cant": "unbounded values; depends on shifts, masks and division of BigInts of all sizes", "anchors": ["crates/reals/src/fixed.rs Add, Sub, Mul, Div, Rem, Ord, floor, ceil, round, trunc, fract", "crates/ints/src/big_int.rs"]}
{"id": "C134", "title": "Fixed-point types that cannot represent one", "statement": "For Fixed<T, N> whose backing integer is too small for the number 1: floor, ceil, trunc and fract return the right number when it is representable and panic otherwise; so does round when a nearest whole number is representable.", "quantifier": "all signed and unsigned integer types, all N with 2^N not representable, all raw values, builds with and without overflow checks", "why_tests_cant": "the edge combinations of type and N are rarely instantiated, and each is a different type", "anchors": ["crates/reals/src/fixed.rs mask, is_whole, one, floor, ceil, trunc, fract, round"]}
{"id": "C135", "title": "Complex arithmetic over the primitive integers", "statement": "Complex<T> for an integer type T: with overflow checks +, - and * (by complex numbers and by scalars) return the exact result when every product, sum and difference of the textbook formula fits T, and panic otherwise; without, they always return the exact result reduced modulo 2^bits. Division by zero panics in every build; any other division whose intermediate values fit returns the real and imaginary part of the exact quotient, each rounded toward zero; and (a * b) / b is a when nothing overflows.", "quantifier": "all integer types, all components, builds with and without overflow checks", "why_tests_cant": "whether an intermediate value overflows depends on all four components at once", "anchors": ["crates/compounds/src/complex.rs Add, Sub, Mul, Div"]}
{"id": "C136", "title": "Dividing a complex number over the integers by a scalar", "statement": "For an integer type T, Complex<T> / s divides both parts by s, rounding toward zero, and panics only if s is zero.", "quantifier": "all integer types, all components, all scalars, builds with and without overflow checks", "why_tests_cant": "the unit tests divide floats; the intermediate products only overflow for integers", "anchors": ["crates/compounds/src/complex.rs Div<T>"]}
{"id": "C137", "title": "Cross products and matrix products over the primitive integers", "statement": "For an integer type T, cross and the product of two matrices (of any sizes with a non-empty inner dimension) return the exact result with overflow checks when all products and all partial sums, from the left, fit T, and panic otherwise; without checks they always return the exact result with each component reduced modulo 2^bits.", "quantifier": "all integer types, all matrix sizes, all components, builds with and without overflow checks", "why_tests_cant": "all sizes and all element values", "anchors": ["crates/compounds/src/vector.rs cross", "crates/compounds/src/matrix/static.rs Mul"]}
{"id": "C138", "title": "Sums, products and dot products of floats: rounding error", "statement": "Vectors of floats never make sum or a dot product panic. If the result is finite then all components were, and it differs from the exact sum of the n terms by at most ((1+u)^n - 1) times the sum of their magnitudes plus, for products, n (1+u)^n times half the smallest positive float. The same bound holds for every entry of a matrix product (n the inner dimension), and with n = 2 for the components of cross and of complex products, for abs_squared, for the determinant of two rows and for the components of wedge, which never panics (below 2^32 dimensions). Whole numbers whose magnitudes (of the terms) sum to at most 2^precision are summed and multiplied exactly. A product of a vector's components has a relative error of at most (1+u)^n - 1 while the exact partial products neither overflow nor become subnormal, and is exact for whole numbers whose product, zeros counted as ones, is at most 2^precision. Finite components give a finite result when the sum of magnitudes plus the error bound is below 2^emax. Empty sums are +0, empty products 1.", "quantifier": "all lengths and matrix sizes, all float values including infinities and NaN, all binary float formats (so f32 and f64), rounding to nearest, ties to even", "why_tests_cant": "rounding errors accumulate over unbounded lengths", "anchors": ["crates/compounds/src/vector.rs sum, dot product, cross", "crates/compounds/src/matrix/static.rs Mul, determinant", "crates/compounds/src/complex.rs Mul, abs_squared"]}
{"id": "C139", "title": "The modulus of a complex number over floats is accurate", "statement": "Complex<f64>::abs (and f32) returns the modulus up to a relative error of two roundings.", "quantifier": "all finite components, all binary float formats", "why_tests_cant": "intermediate overflow and underflow depend on the exponents", "anchors": ["crates/compounds/src/complex.rs abs"]}
{"id": "C140", "title": "Determinants of float matrices", "statement": "determinant of a square matrix of floats does not panic, and is close to the exact determinant.", "quantifier": "all sizes, all entries, all binary float formats", "why_tests_cant": "depends on the pivots chosen; all sizes", "anchors": ["crates/compounds/src/matrix/static.rs determinant", "crates/compounds/src/matrix/macros.rs gauss_elim"]}
{"id": "C141", "title": "Quotients of complex numbers over floats", "statement": "Dividing complex numbers over floats by a number that is not zero gives each component up to a bounded rounding error; a finite number that is not zero divided by itself is about 1.", "quantifier": "all finite components, all binary float formats", "why_tests_cant": "intermediate overflow and underflow depend on the exponents", "anchors": ["crates/compounds/src/complex.rs Div"]}
{"id": "C142", "title": "Elementwise arithmetic of integer arrays", "statement": "zip_add, zip_mul, map_neg and zip_many of arrays of i32 return, index by index, the sum, product, negation and product of four numbers; with overflow checks they panic exactly if one of the values computed does not fit i32, without they reduce modulo 2^32. The iterators read no element twice or out of bounds.", "quantifier": "all lengths, all elements, builds with and without overflow checks", "why_tests_cant": "all lengths and element values", "anchors": ["crates/static-iter/src/codegen.rs"]}
{"id": "C143", "title": "Binary text of fixed-point numbers", "statement": "{:b} of a Fixed<T, N> is the binary numeral of its whole part, a point, and the binary digits of its fraction, so that the text reads as the number.", "quantifier": "all primitive T, all N for which 1 is representable, all values", "why_tests_cant": "all widths and values", "anchors": ["crates/reals/src/fixed.rs fmt::Binary"]}
{"id": "C144", "title": "Text of rationals", "statement": "{:?} of a Rat over a primitive integer is the numerator, ' / ' and the denominator in decimal, each with a minus sign if negative; two rationals have the same text exactly if they compare equal.", "quantifier": "all numerators and denominators", "why_tests_cant": "all values", "anchors": ["crates/reals/src/rat.rs fmt::Debug, PartialEq"]}
{"id": "C145", "title": "Random byte-array integers", "statement": "Sampling a U<N> or I<N> from uniformly random bytes is uniform: every value of the type results from exactly one array of N bytes, and nothing outside its range results.", "quantifier": "all N, all values", "why_tests_cant": "a distribution over 256^N values cannot be sampled exhaustively", "anchors": ["crates/ints/src/u/rand_impl.rs", "crates/ints/src/i/rand_impl.rs"]}
{"id": "C146", "title": "Elements given to a static iterator are released", "statement": "When a consumer of a static iterator (fold, try_fold, any, all, sum, product, collect) ends, whether it returns or a closure panics, every element of every array that was given to the iterator by value has been handed to a closure, is part of the result or has been dropped. None is handed out twice.", "quantifier": "all stacks of adapters over any number of arrays of any length and element type, all closures (also with state, also panicking), all points at which a consumer stops", "why_tests_cant": "a leak is invisible to assertions about results, and the stopping point, the adapters and the element types are unbounded", "anchors": ["crates/static-iter/src/array.rs IntoIter", "crates/static-iter/src/lib.rs FromStaticIter for Option and Result, try_fold, any, all", "crates/compounds/src/vector.rs checked_add, checked_sub"]}
{"id": "C147", "title": "What a panicking assignment leaves in a vector", "statement": "When v += w (or -=, *=, /=, %=, also with a scalar or a reference on the right) panics, there is a first component whose own operator panicked: the components before it hold the results, those after it are as before, and it holds what its operator left in it, which for primitive integers and BigInt is its old value. Without a panic every component holds its result.", "quantifier": "all lengths, all element types and operators, all values, nested vectors", "why_tests_cant": "the point of the panic depends on the values of all components and the element operator is arbitrary", "anchors": ["crates/compounds/src/vector.rs assign_ops_impl", "crates/ints/src/big_int.rs impl_assign_op"]}
{"id": "C148", "title": "A caught panic of a BigInt operation does no harm", "statement": "When a call on BigInts panics (a shift by a negative or huge amount, a division the library cannot do, a conversion that overflows) and the program catches the panic, unwinding does not abort the process; the operands given by value are gone, every other BigInt (also the target of an assigning operator) has the value it had, and no reference to the shared interner is lost or leaked: every count is the number of BigInts that refer to the slot, and when all BigInts are gone every slot is free again.", "quantifier": "all single-threaded programs of BigInt calls (construction, parsing, clone, drop, all operators in all by-value and by-reference forms, assigning operators, conversions, powers, printing), any number of caught panics at any point, all values, both overflow-check settings", "why_tests_cant": "the states are reached by arbitrary programs, the panics depend on values of any size, and a lost reference is invisible until a slot is reused much later", "anchors": ["crates/ints/src/big_int.rs Drop, operators, pow, write_base, from_str_radix", "crates/ints/src/big_int/macros.rs", "crates/utils/src/intern.rs"]}
{"id": "C149", "title": "Zero and one of U<N> are the neutral elements and are recognised", "statement": "U::zero() is 0 and U::one() is 1; is_zero and is_one hold of exactly these values; adding or subtracting zero and multiplying by one return the other operand unchanged, multiplying by zero returns zero, and none of this panics with or without overflow checks. U<0> has one value: zero() and one() are equal there and is_one panics.", "quantifier": "all N, all values, both overflow-check settings", "why_tests_cant": "every value of every width", "anchors": ["crates/ints/src/u.rs Zero, One, Add, Sub, Mul for U"]}
{"id": "C150", "title": "Collecting into nested Options and Results returns everything or the first failure in its own layer", "statement": "A static iterator whose items are Options and Results nested in each other to any depth and in any order collects into the same nesting around an array. If no item is None or Err in any layer, all values come back in order. Otherwise the first item that is decides: the result is that very None or Err(e) in that very layer with the outer layers intact (Some(None) stays Some(None), it does not become None), and no later item is read. Every run is one of these two cases, without panic.", "quantifier": "all nestings of Option and Result, all error types, all N, all stacks of adapters, all items", "why_tests_cant": "the nesting depth is unbounded and each nesting is a different type; the layers and positions of the failures multiply", "anchors": ["crates/static-iter/src/lib.rs FromStaticIter for Option, Result and arrays; StaticIter::collect"]}
{"id": "C151", "title": "Expressions of BigInts in any mix of owned, borrowed and literal operands return the integer they stand for", "statement": "An expression built from BigInt variables (borrowed or cloned), primitive literals, + * << & | ^ and pow, nested to any depth and with any mix of owned and borrowed operands, returns the integer it stands for when the variables and literals are non-negative (shift amounts and exponents below 2^64): it does not panic, every temporary is released, the variables keep their values, and expressions equal as integers compare equal (so a*(b+c) == a*b + a*c, and the operands of + and * may be reordered and regrouped). With subtraction, division, remainder, right shift and negation as well the same holds of every expression in which each single operation is one that the other properties say is right.", "quantifier": "all expressions of any depth, all variables and literals, all pool sizes with room for the temporaries", "why_tests_cant": "the expressions, their nesting and the sizes of the values are unbounded; each temporary is reference counted in a shared pool", "anchors": ["crates/ints/src/big_int/macros.rs operator forms; crates/ints/src/big_int.rs Add, Mul, Shl, BitAnd, BitOr, BitXor, pow, Clone, Drop"]}
{"id": "C152", "title": "Expressions of byte-array integers are right modulo 2^(8N), and exact when nothing overflows", "statement": "Any expression of + - * ! over U<N> values: without overflow checks it never panics and returns the integer it stands for modulo 2^(8N); in both builds it returns that integer itself if no intermediate result leaves [0, 2^(8N)); with overflow checks, anything it returns is right modulo 2^(8N), and without * in it it panics exactly when some intermediate result leaves the range. Any expression of + - * ! and unary minus over I<N> values never panics and returns its integer wrapped into the signed range, so the integer itself whenever the final result fits, whatever the intermediate ones.", "quantifier": "all expressions of any depth, all N, all values", "why_tests_cant": "expressions and widths are unbounded", "anchors": ["crates/ints/src/u.rs Add, Sub, Mul, Not for U; crates/ints/src/i.rs Add, Sub, Mul, Neg, Not for I"]}
{"id": "C153", "title": "Formatting into a writer that fails stops there with an error and leaks nothing", "statement": "Display, Debug, Binary, UpperHex and LowerHex of BigInt, Display and Debug of U<N>, Debug of Rat and Debug and Binary of Fixed hand the text to the underlying fmt::Write in order, piece by piece; at the first piece it refuses nothing more is written and Err is returned, otherwise Ok. So a String gets the whole text, and a bounded buffer a beginning of it with Err exactly if the text does not fit. In either case every BigInt created on the way is released and no other changes its value.", "quantifier": "all writers, all values that format without panic, all formats", "why_tests_cant": "writers may fail at any piece of texts of any length, and keep arbitrary state", "anchors": ["crates/ints/src/big_int.rs write_base, Display, Binary, UpperHex, LowerHex; crates/ints/src/u.rs write_base, Display; crates/reals/src/rat.rs Debug; crates/reals/src/fixed.rs Debug, Binary"]}
{"id": "C154", "title": "Formatting options are honoured as for primitive integers", "statement": "Width, fill, alignment, zero padding and the + and # flags have the effect on BigInt, U<N>, Rat and Fixed that they have on primitive integers of the same value (Formatter::pad_integral).", "quantifier": "all options, all values", "why_tests_cant": "options, widths and values are unbounded", "anchors": ["crates/ints/src/big_int.rs Display; crates/ints/src/u.rs Display; crates/reals/src/rat.rs Debug; crates/reals/src/fixed.rs Debug, Binary"]}
{"id": "C155", "title": "Expressions of rationals: exact under overflow checks, and exact in every build when the numbers are small enough", "statement": "Any expression of + - * / and unary minus over Rat variables and Rat::new literals always ends: with a panic, or with a rational whose parts fit and whose denominator is not zero. With overflow checks whatever is returned is the exact value of the expression, and no divisor in it was zero. In every build, for signed integers, the exact value is returned whenever no divisor is zero and the schoolbook fractions, computed unreduced and with absolute values from the leaves up, stay within the maximum.", "quantifier": "all expressions of any depth, all variables and literals, all primitive integer types, both builds", "why_tests_cant": "expressions, their nesting and the integer values are unbounded; reduction happens at every step with a gcd that can be negative", "anchors": ["crates/reals/src/rat.rs Add, Sub, Mul, Div, Neg for Rat, Rat::new, Rat::reduce"]}
{"id": "C156", "title": "Vectors, matrices and complex numbers of rationals: exact under overflow checks, and exact in every build when the numbers are small enough", "statement": "For elements of type Rat: with overflow checks, + - * / by element (of vectors, with a scalar, and of matrices), sum, product, dot_product, cross, the matrix product, Complex + - * / (also with a scalar) and abs_squared either panic or return exactly the rational numbers the formulas say; a quotient of complex numbers that is returned gives the dividend back when multiplied by the divisor, which was not zero. Dividing by a vector with a zero element or by a zero scalar panics in every build. If all numerators and denominators are at most m in absolute value, every build returns the exact sum of n elements when n*m^n fits, the product when m^n fits, dot and matrix products when n*m^(2n) fits, cross and complex products when 2*m^4 fits and complex quotients when 2*m^8 fits.", "quantifier": "all lengths, shapes and elements, all signed primitive integer types (the first part also unsigned ones), both builds", "why_tests_cant": "lengths, shapes and element values are unbounded; every step reduces, so which step overflows depends on all the values", "anchors": ["crates/compounds/src/vector.rs operators, sum, product, dot_product, cross; crates/compounds/src/matrix/static.rs Mul; crates/compounds/src/complex.rs; crates/reals/src/rat.rs Add, Sub, Mul, Div"]}
{"id": "C157", "title": "BigInts made, cloned, read and dropped by different threads keep the values they were made from", "statement": "Whatever the threads of a program do at the same time, every BigInt is the integer it was made from until it is dropped, and two of them compare equal exactly if they were made from the same integer.", "quantifier": "all numbers of threads, all interleavings of their steps, all integers", "why_tests_cant": "interleavings of any length of any number of threads; races need particular schedules", "anchors": ["crates/ints/src/big_int.rs INT_STORE, new_slice, new_inline, new_intern, Clone, Drop, PartialEq; crates/utils/src/intern.rs add, incr, decr, get"]}
{"id": "C158", "title": "Vectors, matrices and complex numbers of BigInts are exact, use up their operands and leak nothing", "statement": "For elements of type BigInt, the operators by element of Vector (with an owned or borrowed vector or scalar, also the assigning forms) and Matrix, the matrix product, cross, and + - * / of Complex (also with a scalar) return the integers that the formulas say; the operands that are passed by value are gone, those passed by reference and all other BigInts keep their values, and every temporary is released.", "quantifier": "all lengths and shapes, all integers of any size, all states of the interner with room for the operands and results, both builds", "why_tests_cant": "lengths, shapes and integers are unbounded; every clone and temporary touches reference counts in a store shared with all other BigInts", "anchors": ["crates/compounds/src/vector.rs operators, assigning operators, cross; crates/compounds/src/matrix/static.rs Add, Sub, Mul; crates/compounds/src/complex.rs Add, Sub, Mul, Div; crates/ints/src/big_int.rs operators, Clone, Drop"]}
{"id": "C159", "title": "A caught panic of an operation on vectors, matrices or complex numbers of BigInts does no harm", "statement": "When an operator on a Vector, Matrix or Complex of BigInts panics (because an element division does, or because an index is out of range) and the program catches the panic, unwinding does not abort the process; the operands given by value are gone with every result and temporary made so far, every other BigInt keeps its value, the target of an assigning operator holds the elements already replaced followed by the old ones, and no reference to the shared interner is left behind: the slots of the BigInts that are gone can be used again.", "quantifier": "All vectors, matrices and complex numbers of BigInts of any size and value, owned and borrowed operands, both build profiles, every position of the panic.", "why_tests_cant": "The claim is about reference counts of a global store after unwinding through generic iterator code; a unit test sees only that the panic happened. A leaked slot never shows in any later result.", "anchors": ["crates/compounds/src/vector.rs:299-423", "crates/compounds/src/matrix/static.rs:84-147", "crates/compounds/src/complex.rs:52-152", "crates/static-iter/src/array.rs:24-44", "crates/static-iter/src/lib.rs:33-54"]}
{"id": "C160", "title": "Vectors, matrices and complex numbers of U<N> and I<N> are right modulo 2^(8N)", "statement": "For elements of type U<N> or I<N>, + - * by element of Vector (with a vector or a scalar, owned, borrowed or assigning) and + - by element of Matrix, the matrix product, cross, and + - * of Complex (also with a scalar) return what the formulas say over the integers, reduced modulo 2^(8N) into the range of the element type. Only U<N> with overflow checks may panic instead, and never when every intermediate value is in range, in which case the result is exact; + and - of vectors of U<N> with overflow checks panic whenever some element is out of range.", "quantifier": "all N >= 1, all lengths and shapes, all elements, both build profiles", "why_tests_cant": "sizes and values are unbounded; every intermediate value is reduced, and that the reductions commute with the formulas is a statement about all values", "anchors": ["crates/compounds/src/vector.rs operators, cross; crates/compounds/src/matrix/static.rs Add, Sub, Mul; crates/compounds/src/complex.rs Add, Sub, Mul; crates/ints/src/u.rs, crates/ints/src/i.rs operators"]}
{"id": "C161", "title": "The product of an iterator of U<N> is the product modulo 2^(8N), and exact if it fits", "statement": "Without overflow checks, product() of an iterator of U<N> is the product of the numbers modulo 2^(8N), whatever the order in which they come and however they are grouped; with them it is that or a panic. It is exact, and there is no panic, if every initial product is below 2^(8N); for numbers other than zero it is enough that the whole product is. The product of nothing is 1.", "quantifier": "all N >= 1, all iterators of any length, all numbers, both build profiles", "why_tests_cant": "any number of factors of any size; whether overflow is seen depends on the whole sequence", "anchors": ["crates/ints/src/u.rs:445-449"]}
{"id": "C162", "title": "Sums and differences of vectors, matrices and complex numbers of Fixed are exact or overflow", "statement": "For elements of type Fixed, sum() of a Vector, + and - by element of Vector (with a vector or a scalar) and Matrix, and + and - of Complex (also with a scalar) are exact if every value computed fits the type. If one does not, the call panics with overflow checks; without them the raw values are reduced modulo 2^bits.", "quantifier": "all primitive integer types, all numbers of fraction bits, all lengths and shapes, all elements, both build profiles", "why_tests_cant": "lengths, shapes and values are unbounded; a sum overflows depending on all its partial sums", "anchors": ["crates/compounds/src/vector.rs sum, Add, Sub; crates/compounds/src/matrix/static.rs Add, Sub; crates/compounds/src/complex.rs Add, Sub; crates/reals/src/fixed.rs Add, Sub"]}
{"id": "C163", "title": "Products of vectors, matrices and complex numbers of Fixed are exact", "statement": "For elements of type Fixed, the dot product and the product of the elements of a Vector, cross, the matrix product, and * and / of Complex return the exact result whenever it and every intermediate value fit the type.", "quantifier": "all primitive integer types, all numbers of fraction bits, all lengths and shapes, all elements, both build profiles", "why_tests_cant": "lengths, shapes, formats and values are unbounded", "anchors": ["crates/compounds/src/vector.rs product, dot_product, cross; crates/compounds/src/matrix/static.rs Mul; crates/compounds/src/complex.rs Mul, Div; crates/reals/src/fixed.rs Mul, Div"]}
{"id": "C164", "title": "Arithmetic on small BigInts does not touch the shared interner", "statement": "As long as every variable, literal and intermediate result is below 2^62 in magnitude, constructing BigInts from primitives, + - * / % & | ^ between owned and borrowed operands and with primitives, pow, negation, clone, drop, == and comparison neither read nor change the interner that all BigInts of the process share: they give the same result whatever state it is in (so whatever other threads are doing) and leave it exactly as it was. Shifts do use it.", "quantifier": "all expressions of any size over all values below 2^62, every state of the interner (including ones no program reaches), both build profiles", "why_tests_cant": "independence of a global store is a statement about all its states; a unit test runs in one", "anchors": ["crates/ints/src/big_int.rs:164-201, 323-399, 433-529, 707-724", "crates/ints/src/big_int/macros.rs:10-66, 185-268"]}
{"id": "C165", "title": "No call on the shared interner blocks", "statement": "Whatever the other threads are doing or were doing when they were interrupted, a call of Interner::add, incr, decr or get returns within 65n + 6 steps of its own thread, where n is the number of 32-slot chunks the interner has reached by then, and returns what its caller expects: add and incr a handle, get a value. A call left to run alone returns after finitely many steps.", "quantifier": "all numbers of threads, all reachable states, all continuations of the schedule in which no id has 2^64 - 1 references at once", "why_tests_cant": "absence of blocking quantifies over all schedules and all states in which other threads may stop for ever", "anchors": ["crates/utils/src/intern.rs:92-193"]}
{"id": "C166", "title": "The shared interner grows only when its slots are in use", "statement": "Beyond the capacity it was made with, the interner never has more than 32 slots more than there have been handles out at one moment.", "quantifier": "all numbers of threads, all schedules, all operation sequences", "why_tests_cant": "a bound on memory over all interleavings; a test sees the sizes of one", "anchors": ["crates/utils/src/intern.rs:84-110, 134-169"]}
{"id": "C167", "title": "Expressions of fixed-point numbers", "statement": "Evaluating an expression of Fixed<T,N> values built from one(), +, -, unary minus, abs, floor, ceil, trunc, fract, min and max returns the number the expression stands for whenever the numbers of all its subexpressions are representable, in every build. With overflow checks it returns in no other case, and panics instead. Without them an expression of sums, differences and negations is right as soon as its final number is representable. Comparing two results compares the numbers.", "quantifier": "all expressions of any size, all N, all integer types in which the number one fits, all arguments", "why_tests_cant": "Composition: an error of one operator or an unnoticed overflow in the middle of an expression shows only for particular combinations; there are infinitely many expressions.", "anchors": ["crates/reals/src/fixed.rs:104-134", "crates/reals/src/fixed.rs:156-162", "crates/reals/src/fixed.rs:182-185", "crates/reals/src/fixed.rs:214-265"]}
{"id": "C168", "title": "Arithmetic on BigInts by several threads", "statement": "Threads that evaluate expressions of shared BigInts at the same time (literals, clones, + - * / % & | ^ << >> between owned and borrowed operands and with primitives, pow, negation) each get the integer their expression stands for, as they would alone, whatever the interleaving of their accesses to the interner that all BigInts share; the shared variables keep their values, no thread panics or waits for another, every thread that is scheduled often enough finishes, and every temporary is given back: a thread ends with at most one reference to the interner, that of its result, and with none if the result is below 2^62.", "quantifier": "all numbers of threads, all expressions of any size, all schedules, all earlier contents of the interner, both build profiles", "why_tests_cant": "a test sees one interleaving of one set of expressions; the claim is about all of them", "anchors": ["crates/ints/src/big_int.rs:28, 131-201, 323-399, 433-561, 676-724", "crates/ints/src/big_int/macros.rs:10-66", "crates/utils/src/intern.rs:92-193"]}
{"id": "C169", "title": "Distances between vectors of floats", "statement": "Vector::distance_squared and distance over floats never panic. If the platform's powf squares with a relative error of at most e (and an absolute one of at most h), a finite squared distance differs from the sum T of the n exact squared differences by at most ((1+u)^(n+1) (1+e) - 1) T + n (1+u)^n h, and a finite distance has a relative error of at most (1+u)^(n+2) (1+e) - 1 when no squared difference is subnormal, and is not negative. If powf does not depend on the sign of what it squares, swapping the vectors changes no bit, also for infinities and NaN. A finite vector has distance +0 from itself. That does not make it a metric: different vectors can have distance zero, and the triangle inequality can fail by a rounding.", "quantifier": "all lengths, all components, all binary float formats (so f32 and f64), every power function with the stated error, rounding to nearest, ties to even", "why_tests_cant": "a bound over all vectors of all lengths; rounding errors that add up show only for particular components", "anchors": ["crates/compounds/src/vector.rs:68-78", "crates/traits/src/__impl.rs:414-416", "crates/traits/src/__impl.rs:469-475"]}
{"id": "C170", "title": "Reducing matrices of floats by rows", "statement": "row_reduce of a square matrix of floats returns an echelon form: below the pivot of each row its column is zero. When every entry of the result is finite, the result stands for the input: with the rows of the input in the order the exchanges leave them, row i of the input is row i of the result plus multiples of the rows above it, up to rounding; an entry that was reduced N times is off by at most ((1+u)^N - 1) times the sum of the magnitudes of the result's entry and of the N multiples, plus N (1+u)^N times half the smallest float. An entry below a pivot is at most (1+u) (2u |l p| + h (1 + |p|)), p being the pivot, l the multiplier, h half the smallest float, and the columns without a pivot are exactly zero from there down.", "quantifier": "all sizes, all entries, all binary float formats (so f32 and f64), rounding to nearest, ties to even; Matrix and DynMatrix", "why_tests_cant": "a bound over all matrices of all sizes; rounding errors grow with the size and with the pivots", "anchors": ["crates/compounds/src/matrix/macros.rs:1-49", "crates/compounds/src/matrix/static.rs:48-51", "crates/compounds/src/matrix/dynamic.rs:58"]}
{"id": "C171", "title": "Expressions of limb slices", "statement": "Evaluating an expression of limb slices (add, sub, mul, shl, shr, and, or, xor, each by either of the algorithms offered, element by element or bit by bit) gives a vector of exactly the integer the expression stands for, whatever the mixture of algorithms and the lengths of the slices. The only ways to fail are a negative difference, which sub reports, and a right shift element by element of a limb or more in a build with overflow checks. Replacing algorithms by others changes nothing but leading zero limbs.", "quantifier": "all expressions of any size and depth, all slices of all lengths, all limb widths, all shift amounts, both build profiles", "why_tests_cant": "composition: the result of one algorithm, with the leading zeros it leaves, is fed to another; there are infinitely many combinations", "anchors": ["crates/bits/src/algos/element/add.rs:7-38", "crates/bits/src/algos/bitwise/add.rs:8-36", "crates/bits/src/algos/bitwise/mul.rs:8-35", "crates/bits/src/algos/element/shr.rs:9-38", "crates/bits/src/algos/bitwise/shr.rs:8-20"]}
{"id": "C172", "title": "Programs that work in place on limb buffers", "statement": "A program of in-place additions, subtractions, multiplications, complements and shifts on several limb buffers of the same size never panics and leaves in each buffer the integer that the program gives without any limit of size, reduced once modulo 2 to the number of bits of a buffer, although each step reduces. When the integers fit the buffers all along, no addition, subtraction or multiplication reports an overflow and the buffers hold the integers themselves. Conversely additions and subtractions that report no overflow were exact all along.", "quantifier": "all programs of any length, all numbers and sizes of buffers, all limb widths, all contents", "why_tests_cant": "a claim about all sequences of operations; a missed carry shows only when the right value reaches the right step", "anchors": ["crates/bits/src/algos/element/add.rs:40-68", "crates/bits/src/algos/element/sub.rs:54-91", "crates/bits/src/algos/element/mul.rs:56-90", "crates/bits/src/algos/element/neg.rs:3-7", "crates/bits/src/algos/element/shl.rs:71-79"]}
{"id": "C173", "title": "Element code that panics or calls back in the interner", "statement": "The code of an interner's element type runs inside add: the comparison, the conversion, and the destructor of a value that is replaced. Whatever that code does (panic, be caught, call the interner again), get through an id that has references gives the value that add returned the id for, no get is undefined behaviour, and a call of add that panics leaves the interner as it was.", "quantifier": "all programs: any nesting of calls made from inside element code, any placement of panics and of catch_unwind, both build profiles", "why_tests_cant": "the failures need a panic or a nested call at one particular moment inside another call, on an interner whose slots are in a particular state", "anchors": ["crates/utils/src/intern.rs:92-169", "crates/utils/src/intern.rs:47-49", "crates/utils/src/intern.rs:171-183"]}
{"id": "C174", "title": "Dropping the shared list when a destructor panics", "statement": "Dropping the shared list, or the interner on top of it, drops every value pushed exactly once and frees every node exactly once, also when the destructor of one of the values panics.", "quantifier": "all histories of concurrent pushes before the drop, all contents, all destructors (returning, unwinding or aborting)", "why_tests_cant": "needs a destructor that panics, and looking at what has not been freed", "anchors": ["crates/utils/src/linked.rs:139-148", "crates/utils/src/intern.rs:69-71"]}
{"id": "C175", "title": "The capacity given to an interner", "statement": "An interner made with a capacity has room for that many values: it does not allocate any further chunk as long as, at each add, fewer ids than the capacity have references; and making it does not panic.", "quantifier": "all capacities up to usize::MAX, all histories of add, incr and decr, both build profiles", "why_tests_cant": "an interner that grows too early gives the same answers; the capacities at which the arithmetic overflows cannot be tried on a real machine", "anchors": ["crates/utils/src/intern.rs:84-90", "crates/utils/src/intern.rs:92-169"]}
{"id": "C176", "title": "The shared list hands over what was done before a push", "statement": "What a thread did before it pushed a value happens before what another thread does once get, is_empty or an iteration has shown it that value, directly or through further threads: a program that uses other memory with plain reads and writes has no data race if every two accesses of which one is a write are ordered by the threads' own order, by other synchronisation, or by such a push. (len is called only by threads that know of an element, as in C119.)", "quantifier": "all numbers of threads, all programs, all interleavings, all stale reads that release, acquire and relaxed accesses allow, all element types", "why_tests_cant": "a test machine rarely shows the reordering, and a data race need not have a visible effect", "anchors": ["crates/utils/src/linked.rs:64-120", "crates/utils/src/linked.rs:20-40", "crates/utils/src/linked.rs:157-176"]}
{"id": "C177", "title": "Sharing the list is safe for every element type", "statement": "Threads that share the list, each looking only inside elements that it has made or that get or an iteration gave it a reference to, have no data race, whatever the element type is: the list may be shared between threads for every element type.", "quantifier": "all numbers of threads, all programs, all interleavings, all stale reads, all uses that are made of the insides of elements", "why_tests_cant": "whether a type may be shared is a claim about all uses in safe code; the race needs an element with interior mutability and need not have a visible effect", "anchors": ["crates/utils/src/linked.rs:150-153", "crates/utils/src/linked.rs:64-120"]}
{"id": "C178", "title": "No call on the shared list waits for another thread, whatever values loads return", "statement": "However the other threads are scheduled, and however old the values are that its loads return, a call of push, get, len, is_empty or a full iteration returns after at most 3n+2 steps of its own thread, where n is the number of elements that the list has reached by then. (len is called only by threads that know of an element, as in C119.)", "quantifier": "all numbers of threads, all programs, all interleavings, all stale reads that release, acquire and relaxed accesses allow, all list lengths, all element types", "why_tests_cant": "a livelock needs a schedule and stale values that a test machine does not produce; the bound is over all of them", "anchors": ["crates/utils/src/linked.rs:64-120", "crates/utils/src/linked.rs:33-40", "crates/utils/src/linked.rs:166-175"]}
{"id": "C179", "title": "References to a shared interner's values are never lost or made up, whatever values loads return", "statement": "While threads add, clone, give back and read ids of a shared interner, in any interleaving and however old the values are that their loads return, with or without a lock around add: an id that somebody holds is never treated as free, a read or a clone through a held id finds a value and never panics, and once every id of a value has been given back and no call is in progress the place is free for reuse.", "quantifier": "all numbers of threads, all calls through ids held by the caller, all interleavings, all stale reads and late links that release, acquire and relaxed accesses allow, all element types and comparisons, locked or not", "why_tests_cant": "stale reads and interleavings depend on processor and compiler; a count that goes wrong shows up only when a slot is reused while held", "anchors": ["crates/utils/src/intern.rs Interner::add/incr/decr/get/try_get, IdRefs", "crates/utils/src/linked.rs UnsyncLinked"]}
{"id": "C180", "title": "No call on the shared interner waits for another thread, whatever values loads return", "statement": "However the other threads are scheduled, and however old the values are that its loads return, a call of add, incr, decr or get on a shared interner returns after at most 64n+5 steps of its own thread, where n is the number of chunks that the interner has reached by then.", "quantifier": "all numbers of threads, all calls through ids held by the caller, all interleavings, all stale reads and late links, all numbers of chunks", "why_tests_cant": "a starved thread would show only under schedules a test does not produce", "anchors": ["crates/utils/src/intern.rs Interner::add/incr/decr/get", "crates/utils/src/linked.rs UnsyncLinked"]}
{"id": "C181", "title": "BigInt arithmetic by several threads gives the right integers, whatever values loads return", "statement": "Threads that evaluate expressions of shared BigInts and literals at the same time, on processors and with compilers that reorder memory accesses as far as the orderings in the source allow, each get the integer that the expression stands for; the shared BigInts keep their values, no thread panics, there is no data race, the references to temporaries are given back, and every thread that keeps taking steps finishes.", "quantifier": "all numbers of threads, all expressions and integers, all interleavings of the steps of the calls on the interner, all stale reads and late links that release, acquire and relaxed accesses allow", "why_tests_cant": "a test machine produces few of the interleavings and hardly any of the stale reads; a race need not have a visible effect", "anchors": ["crates/ints/src/big_int.rs BigInt operators, INT_STORE", "crates/utils/src/intern.rs Interner::add/incr/decr/get", "crates/utils/src/linked.rs UnsyncLinked"]}
{"id": "C182", "title": "Threads that only ask about shared BigInts need no lock and no turns, whatever values loads return", "statement": "Threads that only ask about shared BigInts (cmp, ==, == with a primitive, truncating conversion, try_from to types of up to 32 bits, binary formatting; of the shared values, of clones, and of expressions without shifts whose results stay below 2^62 in magnitude) may do so at the same time, without a lock, in any order, on processors and with compilers that reorder memory accesses as far as the orderings in the source allow, provided the numbers were made by threads that took turns: every thread gets the answers that one thread alone would get, the shared BigInts keep their values, no thread panics, there is no data race, every reference that a thread made is given back, the interner does not grow, and every thread that keeps taking steps gets all its answers.", "quantifier": "all numbers of threads, all lists of questions, all integers, all earlier histories in turn, all interleavings of the steps of the calls on the interner, all stale reads and late links that release, acquire and relaxed accesses allow, both build profiles", "why_tests_cant": "a test machine produces few of the interleavings and hardly any of the stale reads; a race need not have a visible effect", "anchors": ["crates/ints/src/big_int.rs:281-294", "crates/ints/src/big_int.rs:349-391", "crates/ints/src/big_int/macros.rs:60-183", "crates/utils/src/intern.rs Interner::incr/decr/get", "crates/utils/src/linked.rs UnsyncLinked"]}
{"id": "C183", "title": "Algebraic laws of BigInt operators for integers of any signs", "statement": "For BigInts x, y, z of any signs, however they were made, == finds equal: x + y and y + x; (x + y) + z and x + (y + z); x + 0, 0 + x, x - 0 and x; x - x, x + -x and 0; x - y and x + -y; x * y and y * x; (x * y) * z and x * (y * z); x * 1 and x; x * 0 and 0; (-x) * y and -(x * y); x * (y + z) and x * y + x * z; x / y * y + x % y and x; x * y / y and x; x.pow(a + b) and x.pow(a) * x.pow(b); (x * y).pow(a) and x.pow(a) * y.pow(a); (x << n) >> n and x; x & x, x | x and x; x ^ x and 0; x & y and y & x, and likewise for | and ^; (x ^ y) ^ y and x.", "quantifier": "all integers of any size and sign, all stores of other BigInts, both build profiles", "why_tests_cant": "each law is over all triples of integers; those that fail do so only for certain combinations of signs, sizes and parity", "anchors": ["crates/ints/src/big_int.rs:433-551", "crates/ints/src/big_int.rs:349-359", "crates/ints/src/big_int.rs:707-724", "crates/ints/src/big_int/macros.rs:18-66"]}
{"id": "C184", "title": "Fixed-point numbers over I<K>", "statement": "For every K and N, Fixed<I<K>, N> stands for the raw two's-complement integer divided by 2^N: +, - and negation give the exact result if it is in range and otherwise wrap around, == and cmp compare the numbers, zero, is_zero, the bounds, the sign predicates and abs are right, products and quotients are those of the numbers, from_val and one give the integer and 1, and floor, ceil, round, trunc and fract are the rounded numbers; nothing panics while the result is in range.", "quantifier": "all K above 0, all numbers of fraction bits, all values, both build profiles", "why_tests_cant": "the values and types are too many, and no test in the repository uses a fixed-point number over this type", "anchors": ["crates/reals/src/fixed.rs:13-270", "crates/ints/src/i.rs:32-223", "crates/ints/src/i.rs:281-329"]}
{"id": "C185", "title": "Algebraic laws of U<N> and I<N>", "statement": "For every N, values a, b, c of U<N> and of I<N> obey the laws of arithmetic modulo 2^(8N) (sums and products commute, associate and distribute, 0 and 1 are neutral, differences undo sums; for I<N> negation is additive, an involution and goes through products), in I<N> always and in U<N> for the wrapping functions and without overflow checks; with overflow checks both sides of a law of U<N> give the same value or both panic, and saturating sums commute and associate; &, |, ^ and ! obey the laws of a Boolean algebra, -a is !a + 1, a + b is (a | b) + (a & b), and MAX - a is !a; and a / b * b + a % b is a for b other than 0.", "quantifier": "all N above 0, all values, both build profiles", "why_tests_cant": "each law is over all triples of values of every size; the ones that fail do so for some combinations of sign, size and parity only", "anchors": ["crates/ints/src/u.rs:239-350", "crates/ints/src/u.rs:450-530", "crates/ints/src/i.rs:32-150"]}
{"id": "C186", "title": "Algebraic laws of matrices, cross products and complex numbers of U<N> and I<N>", "statement": "For matrices of U<N> or I<N> with rows and columns: products associate and distribute over sums and differences, the identity matrix is neutral on both sides, transposition reverses products and undoes itself, sums commute and differences undo them; complex numbers of U<N> or I<N> form a commutative ring; cross products of vectors are alternating, distribute over sums and satisfy the identity of Jacobi. All of this holds whatever overflows: for I<N>, and for U<N> without overflow checks, both sides always return the same value; with overflow checks whenever both sides return.", "quantifier": "all N above 0, all shapes without an empty dimension inside a product, all entries, both build profiles", "why_tests_cant": "the laws are over triples of matrices of every shape with entries of every size, most of them overflowing", "anchors": ["crates/compounds/src/matrix/static.rs:40-243", "crates/compounds/src/complex.rs:60-177", "crates/compounds/src/vector.rs:60-330", "crates/ints/src/u.rs:239-350", "crates/ints/src/i.rs:32-150"]}
{"id": "C187", "title": "Algebraic laws of rationals as == sees them", "statement": "For rationals over a primitive integer type, two expressions that stand for the same rational number compare equal with == whenever neither overflows: + and * are commutative and associative, * distributes over + and -, 0 and 1 are neutral, x - x is 0, x - y is x + (-y), (x - y) + y and (x / y) * y are x, and so on. Commutativity and neutrality hold without any condition.", "quantifier": "all primitive integer types, all rationals made by new, all expressions built with + - * / and unary minus, debug and release builds", "why_tests_cant": "== compares the stored numerators and denominators, not the values, and which pair is stored depends on the path: whether the equality holds depends on all operands together", "anchors": ["crates/reals/src/rat.rs:14-166"]}
{"id": "C188", "title": "Algebraic laws of fixed-point numbers", "statement": "For fixed-point numbers over a primitive integer type with N fraction bits: + - * and unary minus satisfy the laws of a commutative ring with zero() and one() (x * one() is x, x / one() is x, x / x is one()); two expressions with + - * and unary minus that are equal as polynomials give equal numbers; (x / y) * y + x % y is x; trunc(x) + fract(x) is x.", "quantifier": "all primitive integer types, all numbers of fraction bits below the width, all numbers, all expressions, debug and release builds", "why_tests_cant": "the laws concern all pairs and triples of numbers, and whether intermediate results overflow", "anchors": ["crates/reals/src/fixed.rs:116-162", "crates/reals/src/fixed.rs:172-190", "crates/reals/src/fixed.rs:259-265"]}
{"id": "C189", "title": "Algebraic laws of matrices, cross products and complex numbers over the primitive integers", "statement": "For matrices over a primitive integer type: products associate and distribute over sums and differences, the identity matrix is neutral on both sides, transposition reverses products and undoes itself, sums commute and differences undo them; complex numbers over the type form a commutative ring; cross products of vectors are alternating, distribute over sums and satisfy the identity of Jacobi. Without overflow checks both sides always return the same value, whatever overflows; with overflow checks whenever both sides return.", "quantifier": "all primitive integer types, all shapes without an empty dimension inside a product, all entries, both build profiles", "why_tests_cant": "the laws are over triples of matrices of every shape with entries of every size, most of them overflowing", "anchors": ["crates/compounds/src/matrix/static.rs:40-243", "crates/compounds/src/complex.rs:60-177", "crates/compounds/src/vector.rs:60-330"]}
{"id": "C190", "title": "Equality, hashes and defaults of vectors, matrices and complex numbers", "statement": "For any element type, == of vectors and of matrices of one static type holds exactly when indexing gives elements that are == at every position; == of dynamic matrices holds exactly when the shapes are the same and indexing gives == elements at every position of that shape; == is reflexive, symmetric or transitive whenever the elements' == is; turning static matrices into dynamic ones, and transposing, neither makes nor breaks an equality, and different shapes give different dynamic matrices; equal vectors hash alike with every hasher if equal elements do; different vectors give the hasher different input, whatever is hashed after them; default vectors and matrices hold the default element at every position.", "quantifier": "all element types with any ==, all lengths and shapes, all entries, all hashers, both build profiles", "why_tests_cant": "any element equality (up to representation, or not reflexive as for NaN), all shapes, and pairs of shapes that share the same data", "anchors": ["crates/compounds/src/vector.rs:15-16", "crates/compounds/src/vector.rs:270-274", "crates/compounds/src/matrix/static.rs:11-12", "crates/compounds/src/matrix/static.rs:78-85", "crates/compounds/src/matrix/dynamic.rs:6-11", "crates/compounds/src/matrix/dynamic.rs:62-66", "crates/compounds/src/complex.rs:7"]}
