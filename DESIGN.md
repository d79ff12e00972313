# Formal model of CraftSpider/numeric

A Coq (8.16.1) model of the crates `bits`, `traits`, `ints`, `utils`, `reals`, `static-iter` and
`compounds`, with machine-checked proofs.  `properties.jsonl` lists the properties, `MANIFEST.json`
the theorems for each, `seeded/LOG.jsonl` the wrong programs the theorems were tried against.

## Layout of `rocq/theories` (logical name `Verif`)

| layer | files |
|---|---|
| result type, list helpers | `Base.v` |
| primitive words | `Words.v` |
| `crates/bits` | `BitSliceModel.v` (slices, `utils.rs`), `ElementModel.v` (`algos/element`), `BitwiseModel.v` (`algos/bitwise`) |
| `crates/traits` | `PrimModel.v` |
| `crates/ints` | `UModel.v`, `IModel.v`, `BigIntModel.v`; `BigIntRun.v`: programs over BigInts |
| `crates/utils` | `InternModel.v` (one thread), `ConcListModel.v`, `ConcInternModel.v` (interleavings) |
| `crates/reals` | `FixedModel.v`, `RatModel.v`, `PositModel.v` (`p.rs`, byte conversions of `f.rs`) |
| `crates/static-iter` | `StaticIterModel.v` |
| `crates/compounds` | `VectorModel.v` (`vector.rs`, `complex.rs`), `MatrixModel.v` (`matrix/*.rs`, `bivec.rs`) |
| specification vocabulary | `Spec.v`, `TextSpec.v`, `InternSpec.v`, `BigIntSpec.v`, `ConcListSpec.v`, `ConcInternSpec.v`, `RealSpec.v`, `StaticIterSpec.v`, `CompoundsSpec.v` |
| theorems, examples, `Print Assumptions` | `Prop*.v` |
| proofs | everything else |

Each definition of a `*Model.v` file cites the Rust lines it transcribes and says where it
simplifies; definitions that follow each other without a comment of their own share the one above
them, and `No code of its own` marks machines, callers, and plumbing that no Rust line corresponds
to.  The theorems in `Prop*.v` are stated with the model's functions and the specification
vocabulary only; next to them `Example`s show inputs that meet the hypotheses.

## Conventions

* A limb is a `Z` in `[0, 2^w)`; the width `w : nat` is universally quantified.  A slice or vector of
  limbs is a `list Z`, least significant first.
* `usize` has 64 bits where its width matters (`PrimModel.v` also has 16 and 32).  Lengths and indices
  are `nat`: index additions do not wrap (no slice is long enough), index subtractions underflow as
  the build profile says.
* `res A` is `Ok a | Panic | Timeout`; `Timeout` only when the fuel standing for a `while` loop runs
  out.  Theorems either give enough fuel or hold for every fuel.
* `out A` (`StaticIterModel.v`) is `Ret a | Pan | UB`, for code with unsafe blocks.
* `dbg : bool`: overflow checks (debug build) on or off.
* `for` loops are folds over `seq`, `while` loops recursion on fuel.
* The global BigInt store is threaded explicitly; temporaries are created and dropped where the Rust
  code creates and drops them.
* Concurrency: any number of threads, any finite schedule, one step per atomic access, sequentially
  consistent.

## Properties

"Outcome" is `proved` when the statement in `properties.jsonl` holds of the model as it stands, and
`partial` when it does not: then `…_refuted` theorems give the counterexample and the remaining
theorems say what does hold.  The theorem names per property are in `MANIFEST.json`.

| id | modelled code | how it is proved | outcome |
|---|---|---|---|
| C01 | `ElementAdd::add`, `BitwiseAdd::add` | loop invariant: value of the finished limbs (bits) plus the carry is the sum of the prefixes | **proved**. ElementAdd::add returns an exact, canonical (shrunk) sum; BitwiseAdd::add returns an exact sum; every limb width and pair of lengths. |
| C02 | `ElementAdd::add_overflowing/checked/wrapping` | same invariant, kept modulo the length of the left slice | **proved**. Also covers longer right operands: there the flag is about the longer length (C02_add_overflowing_longer). |
| C03 | `ElementSub::sub`, `BitwiseSub::sub` | borrow invariant, then the code's negation step evaluated exactly | **partial**. False as stated: C03_sub_refuted ([0]-[2] gives magnitude 0). C03_sub_partial gives the exact result for all inputs: sign right, magnitude two too small on a borrow with an even difference. |
| C04 | `ElementSub::sub_overflowing/checked/wrapping` | borrow invariant | **proved**.  |
| C05 | `ElementMul::mul`, `BitwiseMul::mul` | nested invariants: row accumulation over `widening_mul`; shift-and-add | **proved**. Element version needs one non-empty operand (two empty slices make shrink panic). |
| C06 | `ElementMul::mul_overflowing/wrapping` | top-down in-place invariant modulo the length | **proved**.  |
| C07 | overflow flag of `mul_overflowing` | soundness of the flag by induction; witness by computation | **partial**. False as stated: C07_mul_flag_refuted (u8 16*16 reports no overflow). Proved: a reported overflow is real, and products that fit are returned by mul_checked; the exact condition for a report (C07_flag_exact_partial). |
| C08 | `ElementShl::shl`, `BitwiseShl::shl` | bit by bit (`Z.testbit`) | **proved**.  |
| C09 | `ElementShl::shl_checked` | bit by bit, in place, top down | **proved**.  |
| C10 | `ElementShl::shl_wrapping` | the mask is shown to be reduction modulo a power of two | **partial**. False as stated: C10_shl_wrapping_refuted (3 u8 limbs, shift 16 does nothing). Proved: the amount is reduced modulo 2^floor(log2(bits)), hence the claim for amounts below that. |
| C11 | `ElementShr::shr`, `BitwiseShr::shr` | bit by bit; the debug-only index underflow is explicit | **partial**. BitwiseShr and release ElementShr proved for all inputs; the debug build of ElementShr panics for every amount >= the limb width (C11_element_shr_refuted, exact case split in C11_element_shr_partial). |
| C12 | `ElementShr::shr_checked/wrapping` | bit by bit; the bits left behind are given as a closed formula | **partial**. False as stated: C12_shr_refuted ([128]>>1 = [192]). Proved: the exact result for all inputs (quotient plus the kept top bits), and exactly when the extra term is zero (C12_kept_bits_zero); at the full width the debug build panics. |
| C13 | `Element{Bitand,Bitor,Bitxor,Not}` | bit by bit | **proved**.  |
| C14 | `ElementCmp::cmp` | characterised as the order of the lowest differing limb | **partial**. False as stated: C14_cmp_refuted ([1,0] > [0,1]). Proved: order of the least significant differing limb; numeric when at most one limb differs or both are below 2^B. |
| C15 | `ElementCmp::cmp` | from the characterisation | **proved**.  |
| C16 | `BitwiseDiv::div_long` | remainder invariant, valid while the remainder stays below one limb; for all operands a congruence modulo the width, kept by every round whatever the comparison says; exactly when it is right (DivExact.v): the quotient bits are those of the partial dividends as long as the comparisons agree with the order, and the first that does not is never made good; the divisors right for every dividend: a wrong partial dividend for each other one (PropDivisors.v) | **partial**. False as stated: C16_bitwise_div_refuted. Proved for divisors <= 2^(B-1), and for dividend and divisor below 2^B, divisor not longer than dividend; also exact behaviour for divisor 0 and the panic for longer divisors. C16_congruence_partial: for every divisor not longer than the dividend all seven entry points agree, none panics, and q*b + r = a modulo the width; what fails is r < b. C16_exact_partial: the quotient is right if and only if at every step the comparison by the lowest differing limb agrees with the order of the numbers; C16_one_limb_partial: for a divisor of one limb, if and only if no partial dividend reaches 2^B. C16_divisors_partial: with two or more limbs the divisors that are right for every dividend are exactly those up to 2^(B-1) and the greatest number of the width. C16_leading_partial: with a divisor of 2^B or more the quotient is wrong whenever the B leading bits of the dividend exceed the lowest limb of the divisor, and for a dividend of one limb exactly then. |
| C17 | `ElementDiv::div_long` | one-limb step; congruence invariant over the limb walk for all operands; non-termination shown for every fuel, and exactly which divisors end (ElemDivLow.v); digits of the quotient as an invariant of the walk (PropDivElem.v) | **partial**. False as stated: wrong results and a non-terminating input (all fuel). Proved for one-limb operands; divisor 0 never terminates; for all operands, whenever the loops end the answer is right modulo the width with the remainder below the divisor in the limb order of the crate; a longer divisor panics, and so do two empty slices. C17_terminates_partial: the division ends if and only if the lowest limb of the divisor is not 0 (or the dividend is 0 and the divisor is not); C17_one_limb_divisor_partial: a one-limb divisor divides limb by limb, right if and only if it divides every limb but the lowest. C17_digits_partial: the exact result for every divisor whose lowest limb is not 0: each digit of the quotient is the limb of the dividend divided by the lowest limb of the divisor, or one less in one described case; the remainder follows modulo the width. C17_wrong_partial: so the quotient by a divisor of j + 1 or more limbs is wrong if one of the j highest limbs of the dividend exceeds the lowest limb of the divisor, and 0 if all limbs are below it. |
| C18 | `get_bit`, `set_bit` and their `_opt`/`_ignore` forms | `Z.testbit` of the value | **proved**.  |
| C19 | `BitVecExt::set_push`, `set_bit_push` | direct | **partial**. set_bit_push proved in full; set_push stores only inside the length (C19_set_push_refuted, C19_set_push_beyond). |
| C20 | `IntSlice::shrink` | direct; uniqueness of canonical forms | **proved**.  |
| C21 | `BitIter::next` | induction on the number of calls | **proved**.  |
| C22 | `BitIter::len` | exact value after k calls | **partial**. False as stated: C22_iter_len_refuted. Proved: after k items the reported length is right iff k < B or the iterator is exhausted. |
| C23 | `int_to_arr`, `arr_to_int` | induction on the array | **proved**.  |
| C24 | `widening_mul`, both macro arms | arithmetic; the 128-bit arm by splitting into halves | **proved**.  |
| C25 | `U` byte conversions | reversal and value lemmas | **proved**. Also the inherent as_uN/from_uN conversions. |
| C26 | `U` add, sub in all flavours | from C02, C04 | **proved**.  |
| C27 | `U` mul | from C06, C07 | **proved**.  |
| C28 | `U` checked/saturating mul | from C07 | **partial**. False as stated (C28_mul_overflow_refuted): overflow beyond the top byte is not noticed, and U<1> never notices (second half of C28_mul_overflow_partial). Proved: a reported overflow is real, and the exact condition for a report (C28_flag_exact_partial). |
| C29 | `U` div, rem, checked_div | in-place long division invariant (as C16); exactly when right: C16_exact_partial | **partial**. False as stated (C29_div_refuted). Proved for divisors up to 128 and for dividends and divisors below 256 (all of U<1>); C29_div_zero: division by zero returns MAX, checked_div(0) = Some(MAX). C29_congruence_partial: for all operands no panic and q*b + r = a modulo the width. C29_exact_partial: the quotient is right if and only if the comparisons of the long division agree with the order of the numbers. C29_divisors_partial: for N >= 2 the divisors right for every dividend are exactly 1..128 and MAX. C29_leading_partial: with b >= 256 the quotient is wrong whenever the 8 leading bits of a exceed b mod 256 (for every nonzero a if b is a multiple of 256), and for a < 256 exactly then. |
| C30 | `U` shl, shr | from C09, C10, C12 | **partial**. False as stated (C30_shifts_refuted). Proved: shl in debug builds for all amounts, in release builds for all N that are powers of two (C30_shl_pow2); shr up to the exactly described bits left behind (kept_bits); without overflow checks, for every amount, the amount is reduced modulo the greatest power of two not above 8N (C30_release_partial). |
| C31 | `U` `Ord`, bounds | from C14 | **partial**. False as stated (C31_ord_refuted): low byte first. Proved: exactly which pairs compare less - the lowest differing byte decides (C31_exact_partial) -, total order, bounds, numeric when one byte differs. |
| C32 | `U` bit operators | bit by bit | **proved**.  |
| C33 | `U::pow` | induction over the multiplication loop | **partial**. False at 0^0 (C33_pow_refuted) and for N > 8 (C33_pow_wide_panics). Proved for every other operand with 1 <= N <= 8, both builds; with overflow checks a power that does not fit panics or is reduced (C33_checked_partial), and C33_checked_exact_partial says exactly which powers panic: those where some multiplication on the way is reported as overflowing; the special cases at any N (C33_special_partial). |
| C34 | `FromChecked`/`FromTruncating` between `U` and primitives | byte-copy loops | **partial**. False as stated (C34_casts_refuted). Proved: exact when the U is no wider than the primitive, always a panic otherwise; U::from_checked reduces silently when narrower, panics when wider. |
| C35 | `U` `Display` | digit loop invariant | **partial**. False as stated (C35_display_refuted). Proved for U<1>; C35_display_wide gives the exact behaviour for N >= 2. |
| C36 | `I` add, sub, mul, neg | two's-complement reading of C02, C04, C06 | **proved**.  |
| C37 | `I::abs` | exact result on both signs | **partial**. False as stated (C37_abs_refuted): the top bit is cleared. Proved: identity on non-negative values and the exact result on negative ones. |
| C38 | `I` `Ord`, `Eq` | case split on signs, then C14 | **partial**. False as stated (C38_ord_refuted). Proved for opposite signs and for one differing byte; equality proved in full (C38_eq). C38_exact_partial says exactly which pairs compare less; C38_total_order that the order is lawful. |
| C39 | `I` bounds, sign predicates | direct | **proved**.  |
| C40 | `I` div, rem | from C29; the sign bits of the operands taken apart for the other signs; divisors of several bytes as in C16 (PropDivElem.v) | **partial**. False as stated (C40_div_refuted, C40_rem_sign_refuted). Proved for non-negative operands with divisor at most 128 or dividend below 256. C40_congruence_partial: for all operands no panic and q*b + r = +-a modulo 2^(8N-1), the sign being that of a*b. C40_exact_partial: for a >= 0 and b > 0 the quotient is right if and only if the comparisons agree with the order of the numbers. C40_signs_partial: for all signs, the operands lose their sign bits and the quotient is that of the remaining bits with the sign of a*b, if and only if the comparisons agree. C40_divisors_partial: MIN / b is 0 for every b but 0 and MIN, division by 0 or MIN gives 1 or -1, and no divisor is right for all dividends. C40_leading_partial: for a >= 0 and b >= 256 the quotient is wrong whenever the 8 leading bits of a exceed b mod 256, and for a < 256 exactly then. |
| C41 | `From<prim>` | C23 plus the interner invariant | **proved**. The == part excludes MIN of a signed type in a debug build (that comparison panics, see C56). Stores are those of C57 (consistent); at most 2^61 interned BigInts at a time. |
| C42 | `PartialEq` | canonical form of every handle plus the interner invariant; induction over programs | **proved**. Holds for every handle but a negated zero; C42_programs: no program without unary minus ever has one. Stores are those of C57 (consistent); at most 2^61 interned BigInts at a time. |
| C43 | `Neg` | sign bit | **partial**. -a denotes -a for every a; -(0) == 0 is false (C43_negated_zero_refuted), and the negated zero also compares less than 0, fails u8::try_from and cannot be a shift amount. Stores are those of C57 (consistent); at most 2^61 interned BigInts at a time. |
| C44 | `Add`, `Sub` | C01, C03 under the interner invariant | **partial**. False as stated (C44_add_sub_refuted: 3 + -5 = 0). Proved exact when the signs agree, \|b\| <= \|a\|, or the sum is odd; otherwise the result is off by exactly 2 towards zero (C44_add_sub_otherwise_partial). Stores are those of C57 (consistent); at most 2^61 interned BigInts at a time. |
| C45 | `Mul` | C05 under the interner invariant | **proved**. Reference, owned and primitive-operand forms. Stores are those of C57 (consistent); at most 2^61 interned BigInts at a time. |
| C46 | `Div`, `Rem` | C16 under the interner invariant | **partial**. False as stated (C46_div_rem_refuted). Proved: quotient truncates and remainder is right up to its sign for \|b\| <= 2^63 or 64-bit operands; a divisor with more limbs panics; division by zero never panics. C46_congruence_partial: for every divisor with no more limbs (zero and multi-limb ones included) neither operator panics and \|q\|\|b\| + \|r\| = \|a\| modulo the width of a. C46_exact_partial: the quotient is right if and only if the comparisons of the long division of the magnitudes agree with the order of the numbers. Not so: \|r\| < \|b\|. C46_divisors_partial: every divisor beyond 2^63 in magnitude has a dividend whose quotient is wrong. C46_leading_partial: with \|b\| >= 2^64 the quotient is wrong whenever the 64 leading bits of \|a\| exceed \|b\| mod 2^64, so for every nonzero a if b is a multiple of 2^64. Stores are those of C57 (consistent); at most 2^61 interned BigInts at a time. |
| C47 | `Ord` | limb count, then lowest differing limb | **partial**. False as stated (C47_ordering_refuted). Proved unless both magnitudes have the same number (>= 2) of 64-bit limbs and equal signs; in that case the lowest differing limb decides (C47_equal_length_partial). The order is a lawful total order all the same (C125). Stores are those of C57 (consistent); at most 2^61 interned BigInts at a time. |
| C48 | `TryFrom<&BigInt>` for unsigned types | C41, C47, C23 | **proved**. Stores are those of C57 (consistent); at most 2^61 interned BigInts at a time. |
| C49 | `TryFrom<&BigInt>` for signed types | C41, C47, C23 | **partial**. False as stated (C49_to_signed_refuted). Proved for non-negative values of every type; up to 64 bits also the exact (wrong) answer for negative values and the rejection of values out of range. C49_i128_partial: the exact answer of i128 for every value; C49_i128_refuted: i128::MAX + 1 converts to Ok(i128::MIN). Stores are those of C57 (consistent); at most 2^61 interned BigInts at a time. |
| C50 | `Shl` | C08 | **proved**. Stores are those of C57 (consistent); at most 2^61 interned BigInts at a time. |
| C51 | `Shr` | C11 | **partial**. Release builds: proved for every amount below 2^64; from 2^64 on, and for negative amounts, the shift panics (C51_beyond_partial). Debug builds: proved below 64; from 64 on the shift panics (C51_right_shift_refuted). Stores are those of C57 (consistent); at most 2^61 interned BigInts at a time. |
| C52 | `from_str_radix` | induction over the string | **proved**. The empty string is the number 0. Stores are those of C57 (consistent); at most 2^61 interned BigInts at a time. |
| C53 | `Display`, hex printing | induction over the digit loop | **partial**. Non-negative values: proved. Every negative value prints -0 (C53_negative_partial, C53_printing_refuted). Stores are those of C57 (consistent); at most 2^61 interned BigInts at a time. |
| C54 | printing then parsing | C52 and C53 | **proved**. Stores are those of C57 (consistent); at most 2^61 interned BigInts at a time. |
| C55 | `Pow` | induction over the loop, with all temporaries | **proved**. Operands by value, neither of them a negated zero. Stores are those of C57 (consistent); at most 2^61 interned BigInts at a time. |
| C56 | `PartialEq<prim>`, `PartialOrd<prim>` | C41, C42 | **partial**. Proved for signed primitives (not MIN in debug builds) and for unsigned ones with a non-negative BigInt; the unsigned comparison ignores the sign (C56_eq_unsigned_partial, C56_eq_primitive_refuted); with MIN a debug build panics for every negative BigInt (C56_least_partial). Stores are those of C57 (consistent); at most 2^61 interned BigInts at a time. |
| C57 | all BigInt operations over the interner | an invariant (store consistent with the multiset of live handles) preserved by each call; induction over histories | **proved**. Programs are sequences of the library calls of BigIntRun.v (25 kinds); a panic or non-terminating call ends the history. |
| C58 | the same | the same invariant; chunk bound by the first-dead-slot policy | **proved**.  |
| C59 | `Interner` used by one thread | reference counts against the history | **proved**. Histories of any length in which no id ever has 2^64 - 1 references at once; the condition is needed, C59_full_count: at 2^64 references the count is 0 again in a release build and the value is lost. incr/decr on arbitrary ids allowed. |
| C60 | `Interner::find`, `add` | exact id returned | **partial**. False as stated (C60_dedup_refuted): a released smaller id is taken before the live copy is found. Proved: the exact id chosen (C60_first_match_partial), and deduplication when nothing was released. |
| C61 | `Interner`, any interleaving | inductive invariant over all executions | **proved**. Executions of any length in which no id ever has 2^64 - 1 references at once (the usize counts wrap), in particular all of fewer than 2^64 - 1 steps (C61_condition); any number of threads, any interleaving, handles shared between threads. List accesses of the interner are one step each, as justified by C63-C65. |
| C62 | `Interner`, any interleaving | the same invariant with exclusive adds; two interleavings as witnesses | **partial**. False as stated: C62_value_refuted (two adds take the same free slot), C62_push_refuted (two adds that both append a chunk use the same slot). Proved for executions in which calls of add do not overlap each other, with any concurrent incr/decr/get (C62_one_adder_partial); and, more generally, when those that overlap another find their value in the interner, so that no call that takes or appends a slot overlaps another call of add (C62_overlapping_partial; C62_condition: it is the weaker condition). |
| C63 | `UnsyncLinked`, any interleaving | inductive invariant: one acyclic chain that only grows | **proved**. Any number of threads, any programs, any schedule; one step per atomic access, sequentially consistent. |
| C64 | `UnsyncLinked::push` | invariant relating recorded lengths to the chain; one interleaving as witness | **partial**. False as stated (C64_length_refuted). Proved: two-sided bound on the answer for every execution, exact when no other push returns during the call. |
| C65 | `UnsyncLinked::get`, `iter`, `len`, `is_empty` | the same invariant | **proved**. get, iteration, len and is_empty; any number of threads, any schedule. |
| C66 | `Gcd::gcd` on primitives | Euclid with a fuel bound | **proved**. Fuel bound \|a\|+\|b\| stands for termination. The hypothesis excluding {MIN,-1} applies to signed types only (see C67). |
| C67 | `Gcd::gcd` on signed primitives | exact panic set; for opposite signs, the sign from the parity of the number of Euclid steps | **partial**. False as stated: panics on {MIN,-1} and may return a negative gcd (C67_gcd_signed_refuted). Proved: the exact panic set, the right result for non-negative operands, minus the gcd for non-positive ones, and for operands of opposite signs the sign given by the parity of the number of divisions in Euclid's algorithm. |
| C68 | `FromSaturating`, every row of the macro tables | finite case analysis over type pairs, arithmetic for all values | **partial**. False as stated: i16/i32::saturate_from(isize) truncate on wider pointers (C68_saturate_refuted), i8 from isize is missing. Proved for every other implemented pair on all three pointer widths; the excluded pairs are shown to be plain truncations. |
| C69 | `FromChecked`, `FromTruncating` | arithmetic | **proved**.  |
| C70 | `CheckedShl`, `CheckedShr` | arithmetic | **partial**. False as stated for 64/128-bit amounts: only the low 32 bits of the amount count (C70_checked_shift_refuted, C70_checked_shift_folds). Proved for all amounts in [-2^31, 2^32), hence for all types of at most 32 bits. |
| C71 | `Pow` on primitives | arithmetic | **partial**. False as stated: 0^(2^32) = 1 for u64 (C71_pow_refuted). Proved for exponents below 2^32, including the overflow behaviour of both builds; for larger exponents C71_pow_large_partial says exactly what comes out: the right power except for base 0 and an exponent divisible by 2^32. |
| C72 | `Wrapping*` | arithmetic | **partial**. WrappingAdd subtracts (C72_wrapping_add_refuted; exactly right iff 2b = 0 mod 2^bits). Sub, mul, shl and shr proved. |
| C73 | `Zero`, `One`, `NonZero*` | arithmetic | **partial**. is_zero/is_one on primitives proved; every NonZero value claims to be one (C73_nonzero_is_one_refuted). |
| C74 | `Factorial` | induction | **proved**. Also the overflow behaviour of both builds. |
| C75 | `Fixed` add, sub, neg, order | rationals (`Q`) | **proved**. Primitive backing types of every width; all N. from_val of a value that does not fit loses high bits in every build (C75_from_val_wraps). from_raw is C75_from_raw. |
| C76 | `Fixed` mul, div | rationals | **partial**. False as stated (C76_mul_refuted: 1.0 * 1.5 = 3.0). Proved: * is off by exactly 2^N and / returns the truncated quotient as a raw value; right for N = 0; overflow of either (C76_overflow_partial). |
| C77 | `Fixed` floor, ceil, trunc, fract, is_whole | rationals | **proved**. Primitive backing types; ceil panics (debug) exactly when the ceiling is not representable. |
| C78 | `Fixed` round | rationals | **partial**. False as stated (C78_round_refuted: 0.25 rounds to 1). Proved: round is the ceiling, hence nearest exactly when the fraction is 0 or at least 1/2, when 2.0 is representable; otherwise it panics with overflow checks, and without them panics for unsigned types and is the ceiling for signed ones (C78_two_partial). |
| C79 | `Rat` construction and operators | rationals; gcd from C66 | **partial**. False as stated (C79_new_refuted: Rat::new(-128i8, 5) panics because the primitive gcd is -1). Proved: exact whenever intermediates fit and are not the minimum of a signed type; for all operands never a wrong fraction and never a zero denominator; with overflow checks every result returned is exact (C79_checked_exact). |
| C80 | `Rat` equality | divisibility; the stored pair for each case of divisibility | **partial**. False as stated (C80_eq_refuted: 1/2 and 2/4). Proved: == implies same value; converse for positive fractions with coprime parts, and for all signs when neither part divides the other (C80_eq_signed_partial: the sign is always placed the same way); otherwise the pair is stored as given (C80_stored_partial). C80_exact_partial says for all operands exactly when two results of new are equal. |
| C81 | `Rat` floor, ceil, round | rationals | **partial**. floor proved in full (C81_floor). ceil and round false as stated (C81_rounding_refuted); proved for non-negative values (ceil: one too large exactly on whole values). For all signs ceil is one plus the truncation when nothing overflows (C81_ceil_exact_partial), overflow panics or wraps (C81_ceil_overflow_partial), round of negative values truncates (C81_round_signs_partial), and for all signs adds one to the truncation exactly when the remainder exceeds half the denominator (C81_round_exact_partial). |
| C82 | `Rat` signs, abs | rationals | **partial**. False for negative denominators and for is_positive at zero (C82_sign_refuted). Proved for positive denominators, with is_positive meaning > 0; for negative denominators all of them are exactly the opposite (C82_negative_denominator_partial). |
| C83 | `P` negation | bits | **partial**. Involution proved; zero and NaR are exchanged rather than fixed (C83_neg_refuted), and no value is its own negation (C83_neg_flips_partial). There is exactly one NaR of each size (C83_one_nar_partial). |
| C84 | `StaticIter` adapters and consumers | induction on adapter stacks with a log of visited indices | **proved**. Stacks of every adapter kind with stateful, panicking closures. What becomes of elements not reached is C146. |
| C85 | `FromStaticIter` for `Option`/`Result` | first failure splits the sequence | **proved**. Option and Result of arrays, over any stack; position of the first failure observed through the visited indices. |
| C86 | `Vector` operators | C84 | **proved**. Element operators are arbitrary functions that may panic (sum, product and dot product: that do not). |
| C87 | `Vector::cross` | `ring` | **proved**.  |
| C88 | `Matrix` transpose, product, sum, one, zero | translation into MathComp matrices | **proved**. Any commutative ring, against MathComp matrices; inner dimension at least one as in the quantifier. An empty inner dimension panics (C88_empty_inner). |
| C89 | `Matrix::determinant` | each elimination step as a row operation on a MathComp matrix | **proved**. Any field, any total ordering for the pivot choice, division exact away from zero; determinant equal to MathComp's (Leibniz) one. |
| C90 | `row_reduce` (`gauss_elim!`) | loop invariant: echelon prefix; panics of the other shapes; the range of indices the loops of a tall dynamic matrix write to | **partial**. Refuted: the elimination macro is called with rows and columns exchanged, so every wide matrix and every tall static matrix with at least two columns panics (proved for all), and a tall column is returned unreduced. Proved for square matrices: echelon form, row-equivalent to the input. The other shapes exactly: a static column of two or more rows is returned as it is, or panics when its first entry is zero (C90_column_partial); a dynamic column is always returned as it is (C90_dyn_column_partial); any other tall dynamic matrix is processed without undefined behaviour or an index out of range, keeps its size, and its entries from col*(col-1)+row on keep their values (C90_dyn_tall_partial). |
| C91 | indexing of all matrix types | arithmetic on offsets | **partial**. Refuted: DynMatrix accepts a column out of range and reads the next row; MatrixRef accepts row = rows and reads past the buffer; without overflow checks DynMatrix::new accepts sizes whose product wraps. Proved: in-range reads are right for all; MatrixMut's IndexMut is exact; static matrices are exact; DynMatrix::new rejects every wrong length when the product does not wrap (C91_new_partial); references to static matrices and dynamic matrices made from them read the same entries (C91_same_entries). |
| C92 | `swap_rows` | list surgery; MathComp `xrow` | **proved**. Static and dynamic; determinant over any field. |
| C93 | `Complex` | `field`/`ring` | **proved**. Element operators are those of an arbitrary commutative ring / field. |
| C94 | `choose_n`, `BiVector::new`, `wedge` | binomial recurrences; loop unfolding | **proved**. choose_n with overflow checks, and what it returns without them when the count overflows (C94_count_overflow); wedge then panics in both builds (C94_wedge_overflow); any ring for the wedge product. |
| C95 | `BoundedBit` | `Z.log2`, `Z.testbit` | **proved**.  |
| C96 | `Signed` on primitives | arithmetic | **partial**. False as stated: is_positive(0) is false although documented as >= 0; abs(MIN) panics or returns MIN. Proved everywhere else. |
| C97 | `Overflowing*`, `Checked*` | arithmetic | **proved**.  |
| C98 | `BitAnd`, `BitOr`, `BitXor`, `Not` | C13 | **partial**. Proved for non-negative operands; in general the operators act on magnitudes with the sign of the left operand (C98_bitwise_magnitudes_partial), which is wrong for negatives; Not complements the limbs of the magnitude (C98_bitwise_refuted). C98_signs_partial: the same for all signs of both operands, zero included; C98_not_partial: the exact result of Not for every BigInt, never -a-1. Stores are those of C57 (consistent); at most 2^61 interned BigInts at a time. |
| C99 | `FromSaturating<BigInt>` | C48, C49 | **partial**. Unsigned types: proved. Signed types up to 64 bits: proved unless MIN <= a < 0, where the sign is lost (C99_saturate_refuted). C99_signed_partial: the exact result for every value and every signed type, i128 included. Stores are those of C57 (consistent); at most 2^61 interned BigInts at a time. |
| C100 | `FromTruncating<BigInt>` | C23 | **partial**. Proved for values that fit; other values saturate instead of wrapping, and unsigned types lose the sign (C100_truncate_refuted). C100_exact_partial: the exact result for every value and type; i128::MIN itself panics in a debug build. Stores are those of C57 (consistent); at most 2^61 interned BigInts at a time. |
| C101 | `Interner::get`, any interleaving | the invariant of C61 | **proved**. Executions in which no id ever has 2^64 - 1 references at once (C61_condition). |
| C102 | `UnsyncLinked`, one thread running alone or among others | decreasing measure from any reachable state; among others the measure counts the elements still ahead | **proved**.  |
| C103 | `F` byte conversions | reversal | **proved**.  |
| C104 | `Fixed` `Debug` | digit loop invariant | **partial**. False as stated (C104_debug_refuted: 1/16 prints 625, zero and negatives print nothing). Proved for values of at least 1/10; positive smaller values print their decimals without leading zeros or point (C104_small_partial), others nothing (C104_negative_partial); overflow of raw * 10^N panics or prints the digits of the wrapped number (C104_overflow_partial), overflow of 10^N panics with overflow checks (C104_power_partial); without them it divides by zero or prints the digits of a wrapped number (C104_power_unchecked_partial). |
| C105 | constants, predicates, `abs`, `is_inline` | from the invariant of a handle | **partial**. Constants, abs and the inline limit: proved for every BigInt. The predicates are proved for every BigInt but a negated zero, for which is_zero is false and is_negative true (C105_predicates_refuted). Stores are those of C57 (consistent); at most 2^61 interned BigInts at a time. |
| C106 | `approx_float` over the whole non-negative doubles (FloatModel.v) | error bound per loop round; characterisation above 2^1024; the loop against Flocq’s fused multiply-add (PropApproxFlocq.v) | **partial**. Proved for non-negative numbers below 2^1024. The sign is ignored (C106_sign_refuted), and from 2^1024 on the result is a NaN instead of infinity when a limb from the 17th on is zero (C106_infinity_refuted, C106_huge_partial). C106_doubles_partial: for every number of less than 2^31 limbs the result is what the same operations give in Flocq's binary64 (uses the standard library's axioms of the reals). Stores are those of C57 (consistent); at most 2^61 interned BigInts at a time. |
| C107 | `Binary` | the digit loop against `digits_val` | **proved**. Every BigInt but a negated zero. Stores are those of C57 (consistent); at most 2^61 interned BigInts at a time. |
| C108 | `Fixed` constants, bounds, `abs`, predicates | order of `fixed_val` | **partial**. one() false as stated when 1 is not representable: Fixed<i8,7>::one() is -1 in every build (C108_one_refuted, C108_one_wraps); is_positive(0) is false and abs(MIN) wraps in release (C108_sign_refuted). zero, bounds, min_positive, max_negative proved in full; one and sign proved otherwise. |
| C109 | `Rat` constants and bounds | C79; cross multiplication | **partial**. is_one false as stated: Rat::new(2, 2) is 1 but is_one is false (C109_is_one_refuted). Proved: is_one implies 1, and is right for denominator 1; the rest in full. |
| C110 | bounds of integers and `NonZero` | arithmetic | **proved**. Pattern 0 excluded by the NonZero types themselves. |
| C111 | `impl_bytes!` | base 256 digits as in C25 | **proved**. Signed integers through their two's complement pattern, floats through their IEEE pattern. |
| C112 | `impl_float!` over bit patterns of any format (FpModel.v); values by the IEEE formula (FpSpec.v) | decoding lemmas of FpProofs.v; FpFlocq.v: a pattern decodes to what Flocq decodes | **partial**. min_positive/max_negative false as stated: subnormals are smaller (C112_min_positive_refuted); proved: least among normal numbers. The rest proved for every IEEE format. C112_doubles, C112_singles and C112_compare identify the two formats and their comparison with Flocq's binary64 and binary32 (these use the standard axioms of the reals). |
| C113 | `as` casts from integers | rounding to `fbits + 1` bits is nearest among all floats, and is Flocq's `binary_normalize` | **partial**. False for u128 into f32 only: values from 2^128 - 2^103 give infinity (C113_saturate_refuted, C113_overflow_partial). Proved for every other pair of types (C113_types), and for every IEEE format below the threshold. For every integer the pattern is the one of Flocq's rounding to nearest even (C113_rounding, with the standard axioms of the reals). |
| C114 | `as` casts to integers | `toward_zero` of the decoded value | **partial**. False as stated: rounds toward zero, 2.75 becomes 2 (C114_nearest_refuted). Proved: the integral part, clamped; NaN, infinities; round trip. |
| C115 | `I` bitwise operators | C32; the two's complement bits of `sval` | **proved**.  |
| C116 | `Vector` constructors, accessors, `distance2` | list lemmas; ring | **proved**. distance2 over any commutative ring. |
| C117 | `from_rows`, `from_columns`, `diag` | C84; entries | **proved**.  |
| C118 | `Drop` and `Index` of `UnsyncLinked` | every allocated node is linked or owned by a running push (counting invariant); the linked nodes are walked once | **proved**. Any number of threads, any schedule; sequentially consistent, and C118_drop_weak under release/acquire/relaxed views for an owner synchronised with every push. Index is get with a panic on None. |
| C119 | `UnsyncLinked`, each access with its memory ordering (WeakListModel.v) | witness of the race in `len`; otherwise inductive invariant: every view knows a first part of the chain with all its nodes initialised | **partial**. False because of len (C119_race_free_refuted): its first load is relaxed, so it can follow the head to a node not yet visibly initialised. Proved: no race and no null pointer as long as len is called only by threads that already know of an element, in particular for programs without len. View-based release/acquire/relaxed memory; no load buffering. |
| C120 | the same model | the same invariant, with a lower bound of what each thread knows computed from the history alone | **proved**. For executions in which len is called only by threads that know of an element (others have the race of C119). View-based release/acquire/relaxed memory; no load buffering. |
| C121 | `floor` .. `fract` of `f32`, `f64` over bit patterns (std by its documentation) | whole numbers within 1 of a float are floats; remainders of floats are floats | **partial**. Directions false as documented (C121_direction_refuted, -1.5): the implementations forward to std, which floors down and truncates toward zero. Proved for every IEEE format: what they do for every finite number (equal to the documented direction from 0 on), round, fract, signs, NaN and infinities, exactness. |
| C122 | `Interner` with each atomic access and its ordering, accesses to values logged (WeakInternModel.v), on top of a list of chunks whose links arrive late (WeakChunkModel.v) | witness of the race between two calls of `add` one after the other; with a lock around `add`: inductive invariant over views (what the lock releases, what each handle was born with, which chunks each knows); without the lock, for threads that take turns (WeakTurnSpec.v): the same invariant with the view of the last call of `add` in place of the lock | **partial**. False as stated (C122_race_free_refuted): set_val comes after the releasing fetch_add, so two calls of add that do not even overlap can race. Proved: with a lock around add (and none around incr, decr, get) there is no race, no call breaks, and every handle and every get has its value. Proved too of the code as it is, without a lock, if the threads take turns in calling add, the turn being handed over when one thread learns what the other has done (C122_turns_partial), in particular if only one thread calls add (C122_one_adder_partial). View-based release/acquire/relaxed memory; no load buffering; a walk along the list of chunks is one step that may miss any chunk the thread does not know of, and push may return any length that C64 and C120 allow. |
| C123 | `Interner`, calls one after the other | witnesses; C59's agreement of store and history, kept along a history in which the count stays positive | **partial**. False as stated: C123_reference_refuted (the slot of a reference is reused after decr), C123_absent_refuted (incr of an id that add never returned makes get read an absent value: unwrap_unchecked on None). Proved: references are stable as long as the id keeps references; get finds a value if incr is only called with ids that add returned. |
| C124 | `BitwiseAdd::add_in_place` | induction over the loop: the first bit past the shorter operand panics | **partial**. False of every input: the loop goes one bit past the end and get_bit panics there (C124_in_place_refuted, C124_always_panics_partial for all operands). Nothing in the repository calls it. |
| C125 | `Ord for BigInt` | the order is by sign, number of limbs, limbs from the low end: a lexicographic order on canonical limbs | **proved**. Every BigInt but a negated zero. The order is not the numeric one (C47). Stores are those of C57 (consistent); at most 2^61 interned BigInts at a time. |
| C126 | `DynMatrix::swap_rows` with wrapping and checked `usize` arithmetic | case analysis; permutation of the pieces of the buffer | **partial**. Refuted: without overflow checks swap_rows(0, 2^63 + 1) exchanges rows 0 and 1 of a 2 x 2 matrix; swap_rows(7, 7) is accepted in every build. Proved: two different rows are rejected with overflow checks, or when the offset does not wrap, for matrices with a column; in any case the matrix keeps its shape and elements (C126_contained_partial). |
| C127 | `Pow`, `log`, `sqrt` of floats, trait defaults `root`, `cbrt`, over the reals (RealOpsModel.v) | laws of `exp` and `ln` | **partial**. root and cbrt of negative numbers are NaN, e.g. cbrt(-8) (C127_root_refuted, C127_negative_partial for all of them): the trait's defaults go through powf. Proved for non-negative numbers; pow, sqrt and log in full. Exact real arithmetic; rounding not included. Uses the axioms of Coq's real numbers. |
| C128 | `csc`, `sec`, `cot` of floats over the reals | field; sin^2 + cos^2 = 1 | **proved**. Exact real arithmetic; cot is not characterised where the cosine is 0. Uses the axioms of Coq's real numbers. |
| C129 | `Vector::distance`, `Complex::abs` over the reals | Cauchy-Schwarz for lists by induction | **proved**. Exact real arithmetic; float rounding and overflow not included. Uses the axioms of Coq's real numbers. |
| C130 | `Fixed<U<K>, N>` (FixedUModel.v) over UModel.v | the bits the right shift leaves behind are those the left shift drops; otherwise from C26, C30, C32 | **proved**. For the shift amounts U<K> honours: below the width and, in release builds, below the largest power of two not above the width (every amount below the width when K is a power of two, C130_shiftable_pow2). from_val of a value that does not fit loses the high bits in either build (stated). is_zero, is_one, min_value and max_value are C130_constants. |
| C131 | `Fixed<U<K>, N>`: mul, rem, cmp, fract, trunc, round | from C27, C29, C31; witnesses for the refutation | **partial**. False as stated (C131_refuted: fract(2.0) = 3.0 and trunc(2.0) panics with 8 fraction bits, 1/256 > 1.0, 1.0 * 1.5 = 3.0, 0.25 rounds to 1). Proved: fract and trunc right up to 7 fraction bits; for any number of bits value and fract differ by a whole number; products too large by 2^N, wrapping without overflow checks (C131_mul_wraps_partial); round is ceil up to 6 fraction bits. Order: see C31. C131_fract_wrong_partial: with 8 or more fraction bits fract is 1 or more for every nonzero number below 2^(8K-1-N mod 8) (raw). |
| C132 | `Fixed<BigInt, N>` (FixedBigModel.v) over BigIntModel.v | sequencing lemmas for operations on owned handles (FixedBigProofs.v), then C41-C43, C50, C105 | **proved**. The negation of zero is BigInt's negative zero (C43): it denotes 0 but is not accepted by the other theorems. |
| C133 | `Fixed<BigInt, N>`: operators, `cmp`, `floor`, `ceil`, `round`, `trunc`, `fract` | from C44-C47, C49-C51; the complement of the mask covers whole limbs only; witnesses for the refutation | **partial**. False as stated (C133_refuted: with one fraction bit floor(-1.5) = -1, ceil(-1.5) = 0, ceil(2^64) = 2^64 + 1, 1.5 * 1.5 = 4.5; round(0.25) = 1; with 64 bits fract(0.5) panics and, with overflow checks, floor panics). Proved: + and - where BigInt's are exact, and elsewhere two units of the last place off (C133_add_sub_otherwise_partial); * too large and / too small by exactly 2^N; floor is toward zero; ceil and round are one plus the truncation except on whole numbers (ceil: whole numbers whose raw value is below the next multiple of 64 bits); trunc and fract right up to 63 bits. |
| C134 | FixedModel.v at the edge: `2^N` not representable | `one()` is the minimum of the type; shifts by the width or more panic or are reduced; witnesses for the refutation | **partial**. False as stated (C134_refuted: with i8 and N = 7 ceil(-0.5) panics with overflow checks and ceil(0.5) = -1 without; with u8 and N = 8 floor(0.5) = 0.5 without). Proved for signed types with N one less than the width: floor, trunc and fract right, ceil and round described for every value; for N at least the width: everything panics with overflow checks, and without them N is reduced modulo the width. |
| C135 | `Complex` operators over integers that may panic (CompoundIntModel.v) | chains of checked operations return the exact value or panic; congruences modulo 2^bits | **proved**. Any integer type with at least one bit. |
| C136 | `Complex / T` over integers | as C135; witnesses for the refutation | **partial**. Refuted: the code multiplies by s and divides by s*s, so for i8 (100 + 0i) / 20 panics with overflow checks and is 0 without, and without checks (100 + 0i) / 16 divides by zero. Proved: right, in both builds, whenever s*s and both products by s fit; with overflow checks a panic in every other case; without them the exact result for all operands: square and products are reduced first, and the division panics exactly if the reduced square is zero (C136_unchecked_partial). |
| C137 | `Vector::cross` and the matrix product over integers (CompoundIntModel.v) | induction over the partial sums; tabulation lemmas of MatrixProofs.v | **proved**. Inner dimension at least one as in C88. |
| C138 | the float instances of vectors, matrices, complex numbers (IeeeModel.v) over Flocq's `binary_float` | one rounding lemma (relative error or half the smallest float), induction over the partial sums; whole numbers are in the format | **proved**. u is 2^-precision. For sum without products the bound is ((1+u)^(n-1) - 1) times the sum of magnitudes. Uses the axioms behind Coq's real numbers, as Flocq does. |
| C139 | `Complex::abs` over Flocq floats | error of the squares, the sum and `sqrt`; exact underflow condition from the rounding of halves; case analysis on overflow; witnesses for the refutation | **partial**. Refuted for f64: abs of 2^600 is infinite and abs of 2^-600 is zero. Proved: a relative error of at most (1+u)^2 - 1 when the squared modulus does not overflow and neither square underflows (C139_in_range_partial); for all finite components, that the modulus is a square root, rounded once, of the squared modulus up to the error of two products and a sum, or infinity when that reaches the overflow threshold (C139_all_finite_partial); that it is infinite as soon as one square passes the threshold; that it is zero exactly when both squares are at most half the smallest float; NaN and infinite components. Uses the axioms behind Coq's real numbers, as Flocq does. |
| C140 | `determinant` over Flocq floats | loop invariant: elimination changes a triangular matrix by signs of zeros only; the search for the pivot panics at a NaN; witnesses for the refutation | **partial**. Refuted for f64: the pivot chosen is the smallest non-zero entry of the column, so a matrix of determinant about 2 gets determinant 0; a NaN beside another non-zero entry in the first column always panics (C140_nan_partial). Proved: upper triangular matrices with finite entries and no zero on the diagonal get the product of the diagonal, multiplied from the left (C140_triangular_partial); one row is exact and two rows are within the error of two products and a difference (C140_small_partial); from three rows on, whenever the reduced matrix is finite, the determinant is the rounded product of its diagonal, negated for each exchange of rows, and that matrix is the input up to the rounding of C170 (C140_reduced_partial). Row reduction of a matrix that is not square (and has at least two columns) panics. For two rows see C138. Uses the axioms behind Coq's real numbers, as Flocq does. |
| C141 | `Complex / Complex` over Flocq floats | C138 for the numerator, C139 for the divisor, one rounding; divisors that overflow or vanish by C139; witnesses for the refutation | **partial**. Refuted for f64: 2^600 / 2^600 and 2^-600 / 2^-600 are NaN. Proved: an error bound for each finite component when the squared modulus of the divisor neither overflows nor underflows, and the same for division by a scalar, which goes through its square (C141_scalar_partial, C141_scalar_refuted); an error bound for every divisor whose squared modulus exceeds its own rounding error, subnormal squares included (C141_all_finite_partial); every component is zero or NaN when a square of the divisor overflows, and none is finite when both squares vanish (C141_overflow_partial, C141_underflow_partial, C141_scalar_extremes_partial). Uses the axioms behind Coq's real numbers, as Flocq does. |
| C142 | `codegen.rs` of static-iter over the iterator model (CodegenModel.v) | C84's item and panic lemmas; the arithmetic of C135 | **proved**. Any n; the closures may panic. |
| C143 | `fmt::Binary` of `Fixed` (FixedTextModel.v) | C77 for the parts; numerals are unique; arithmetic of the positional value | **partial**. False as stated (C143_refuted: 1.5 with four fraction bits prints 10000.1000). Proved: the two numerals printed, for every value (negative parts in two's complement); different values print differently; and exactly which non-negative values print right - those without whole part (or fraction bits) whose fraction is 0 or at least 1/2. |
| C144 | `fmt::Debug` of `Rat` (TextRandModel.v) | numerals are unique; splitting at the blank | **proved**. Stored numerator and denominator, see C80. |
| C145 | `rand_impl.rs` of `U<N>` and `I<N>` (TextRandModel.v) | base 256 representation is a bijection | **proved**. The generator's bytes are taken as independent and uniform; the code stores them as they come. |
| C146 | static iterators again, with the state left by a break or panic (StaticDropModel.v) | each access empties the same cell of the first sources; induction over the run; agreement with the model of C84 | **partial**. Refuted: when a consumer stops early (any, all, try_fold, a None or Err while collecting, an overflow in Vector::checked_add or checked_sub) or panics, elements are forgotten without being dropped, since IntoIter has no Drop and collected elements sit in MaybeUninit. Proved: runs to the end leave nothing; otherwise exactly which elements stay behind. That none is handed out twice is part of both (a cell is emptied when it is read) and of C84. |
| C147 | the assigning operators of vectors, keeping the vector when a component panics (VecAssignModel.v) | induction over the components; agreement with the model of C85 | **proved**. The element operator is any function that says what it leaves and whether it panicked. |
| C148 | the BigInt operations again, with the frames that drop operands and temporaries when a panic passes, and programs that catch panics (BigIntUnwindModel.v) | agreement with the model of C57; a safety judgement for returning and panicking ends, per operation; induction over programs | **proved**. Single-threaded; fewer than 2^61 interned BigInts at a time. Operations that change the store last and own nothing when they can panic are the ones of BigIntModel.v; the others are written again with the frames that own their operands and temporaries, and proved to agree. |
| C149 | zero, one, is_zero, is_one, +, -, * of U<N> (UModel.v) | values of the constants; C26, C27; a byte array is determined by its value | **proved**.  |
| C150 | `FromStaticIter` for `Option`/`Result`/arrays composed to any depth (StaticIterModel.v) | induction over the layers for uninit, write and finish, then over the items | **proved**. The nesting is a list of layers, so the theorems cover every depth at once; C150_kinds shows the two cases are exhaustive and exclusive. |
| C151 | the operator forms of BigInt composed into expressions (BigIntExprModel.v) | induction over the expression, each step by the theorem of its operator | **proved**. C151_natural is the statement for + * << & \| ^ and pow over non-negative values, C151_laws the comparison of equal expressions, C151_each_step the general one. C151_any gives the exact result for operands of any signs, wrong sums, bit operations on magnitudes and signs of remainders included. The pool has room for the temporaries of the expression; exponents as for C52. Stores are those of C57 (consistent); at most 2^61 interned BigInts at a time. |
| C152 | the operators of `U<N>` and `I<N>` composed into expressions (UExprModel.v) | induction over the expression; ring laws modulo 2^(8N) | **proved**. C152_wrapping, C152_exact and C152_checked for U<N>, C152_signed for I<N>. Products with overflow checks may go unreported (C28), hence the condition in C152_checked. |
| C153 | the fmt implementations through a formatter over an arbitrary writer (FmtModel.v) | the pieces written are those of the plain text model; induction over them | **proved**. For every writer (any state, any answer to each write_str). The texts themselves are those of C35, C53, C54, C143, C144; each theorem takes the text of the plain model and shows how it reaches the writer. |
| C154 | the same, with the formatter options; std `pad_integral` is specified in PropFmt.v (`padded`) | the outcome is the same for any two options; refuted by width 3 | **partial**. False as stated (C154_refuted: 9 in a field of width 3 is written as 9, + is ignored, {:#b} of a Fixed has no 0b). Proved: the options make no difference at all (C154_ignored_partial), so a non-negative BigInt looks like a primitive exactly if there is no + and the width is at most the number of digits (C154_display_partial). |
| C155 | the operators of Rat composed into expressions (RatExprModel.v) | induction over the expression from the theorems of C79; reduction never enlarges the parts | **proved**. For primitive integers of any width; the fuel bound stands for termination of the gcd. |
| C156 | the generic compounds over the operators of Rat (RatCompoundModel.v) | each step by C79; folds by induction over the elements; bounds on numerators and denominators carried along | **proved**. For primitive integers of any width. Vector::distance and Complex::abs of rationals panic always (Rat::pow and Rat::sqrt are todo!()) and are not modelled. |
| C157 | executions of the shared interner with limb slices; a BigInt is a handle with a sign (ConcBigIntModel.v) | C62 and its invariants; an invariant that only large values are interned; reading by cases on the word | **partial**. False as stated (C157_refuted: two threads that make 5*2^64 and 7*2^64 at the same time can both get the same BigInt). Proved: BigInts below 2^62 in magnitude are never affected; as long as no two threads make large BigInts at the same moment, unless both are numbers that are there already (anything else may overlap) every BigInt keeps its value and equality is equality of integers; and when all calls have returned the store is in the state that the theorems about one thread (C41-C61) start from. Sequentially consistent steps, as in C62. |
| C158 | the generic compounds over the operators, clones and drops of BigInt, threading the store (BigIntCompoundModel.v) | an ownership invariant: a list of handles with their values on top of the others; one lemma per call, induction over elements and entries, symbolic execution for cross and complex | **partial**. False as stated, because sums and differences of BigInts of opposite signs can be off by two (C158_refuted: [[1, 1]] * [[1], [-3]] is [[0]], Vector([1]) - Vector([3]) is Vector([0])). Proved: exact whenever each single operator application is within the limits of that operator (right_op, add_exact); without any such condition, what the operators of vectors and matrices (for / and % within their limits), the matrix product, the cross product and + - * of complex numbers return instead, as the integers that BigInt's + and - make of each pair (bi_sum, bi_diff: C158_any_partial, C158_product_any_partial, C158_complex_any_partial, C158_cross_any_partial); products of matrices of non-negative numbers without any such condition; and always that operands and temporaries are released and all other BigInts keep their values. After a panic nothing is claimed. |
| C159 | the same calls with the frames that own BigInts while a panic passes (BigIntCompoundUnwindModel.v) | the ownership judgement of C148 with frames that own lists; induction over the elements already done; a store with a leaked slot as witness of the refutation | **partial**. False as stated for Vector op Vector and Vector op &Vector (and the same iterators in Matrix + and -, whose element operators do not panic): the iterators of static-iter never drop what they still hold, so the elements behind the position of the panic stay referenced for ever (C159_refuted: [9, X] / [-7 X, -7] with X = 2^100 + 3). Proved: exactly those elements are leaked, nothing else, and all other BigInts keep their values (C159_vectors_partial, C159_borrowed_partial); nothing is leaked by the scalar forms, the matrix product, and + - * / of Complex (C159_scalar_partial, C159_product_partial, C159_complex_partial); the assigning forms leave nothing behind and the target is as described (C159_assign_partial, C159_assign_scalar_partial). Never an abort. C159_agrees ties the calls to those of C158. Complex + T, - T, * T and cross are not covered here: their operators + - * do not panic. |
| C160 | the generic compounds over the operators of U and I (UCompoundModel.v) | rewriting modulo 2^(8N) with a congruence relation; a result in range with the right residue is the stored value; folds by induction; C26 and C27 for the results in range | **proved**. Products with overflow checks may go unreported (C28), so for them only 'a panic or the reduced result' and the exact result in range are claimed. Division is left out: the long division of U and I is right only under the condition of C29 and C40. Integers are not Real, so Vector::sum, product and dot_product do not exist for them. |
| C161 | Product of an iterator of U (UModel.v u_product) | induction over the iterator; without zeros every initial product is at most the whole; permutations by induction | **proved**. C161_checked_exact says exactly which products panic with overflow checks. C161_any_order also says that products of parts can be multiplied. |
| C162 | the generic compounds over the operators of Fixed (FixedCompoundModel.v) | induction over the elements, with the list of partial sums as the values that must fit; C135 for complex numbers | **proved**. Over a primitive integer of any width. Vector::distance of Fixed panics always (Fixed::pow is todo!()) and is not modelled. |
| C163 | the same | each raw product is 2^N times the raw value of the product; induction for dot products, C135 and C137 for the others; a witness for the refutation | **partial**. False as stated (C163_refuted): Fixed::mul multiplies the raw values and Fixed::div divides them, so with N fraction bits every product of two is 2^N too large: [1.0] . [1.5] = 3.0 for N = 1. Proved for all values: dot, matrix, cross and complex products are exactly 2^N times the true value if the raw values fit and panic otherwise with overflow checks; the product of the n elements of a vector is 2^(N n) times too large; complex quotients have the truncated true quotient as raw value. C163_dot_right_partial: a dot product is right exactly if N = 0 or it is zero. |
| C164 | BigInt operators and expressions on inline words (BigIntModel.v, BigIntExprModel.v) | each operator is a function of the limbs followed by new_slice; the value in the empty store (C44-C47, C55, C98) shows that new_slice takes the inline branch, which ignores the store; induction over expressions | **proved**. Expressions are those of C151, each operator within its limits and every result below 2^62; C164_untouched_operators also covers single operators whose result is wrong (C44, C46, C98), except division by zero. 'Does not touch' is: the same word in every store, and the store returned unchanged. C164_shifts_touch shows why shifts are not in the claim. |
| C165 | the shared interner (ConcInternModel.v) | a measure on the place of a thread inside its call decreases with each of its steps and is not changed by the others; panics are excluded by the invariant of C61 | **proved**. One step per access to shared memory, sequentially consistent; incr and decr are one step each (fetch_add, and fetch_update, whose retries only happen when another thread made progress). Executions in which no id has 2^64 - 1 references at once, as in C61. |
| C166 | the same | ids alive during a scan were alive when it began; a scan that finds no free slot has seen them all; pigeonhole; a witness for the refutation | **partial**. False as stated (C166_bounded_refuted: four threads that find the interner empty append four chunks). Proved when calls of add do not overlap each other; incr, decr and get may overlap them and each other (C166_bounded_partial), and also when they do, as long as those that overlap another find their value in the interner (C166_overlapping_partial). |
| C167 | expressions of Fixed (FixedExprModel.v) over the operators of C75, C77 and C108 | each operator is exact or panics (C75, C77, C108); every number of an expression lies on the grid of multiples of 2^-N, so representability is decidable; induction over expressions | **proved**. Primitive backing types. Products, quotients and round are left out: they are not those of the numbers (C76, C78). With overflow checks the condition is exact: returns if and only if all subexpressions are representable. |
| C168 | BigInt operators and expressions as programs that stop at each call of the interner, run by several threads on the shared interner (ConcArithModel.v); proved equal to BigIntModel.v for one thread | a weakest precondition over the references a thread owns, per operator and for expressions; an invariant over all threads that ties owned handles to these references, with C62 and C165 for what the calls return; a measure for finishing; a witness for the refutation | **partial**. False as stated (C168_refuted: two threads that convert 5*2^64 and 7*2^64 from u128 can both get the same word). Proved when no call of add for a number that the interner does not have overlaps another call of add (everything else may overlap), no count reaches 2^64 - 1, the interner has at most 2^62 slots, and divisors and shift amounts are within the limits of C46, C50 and C51. What a thread gets is then what the operators return one after the other in one thread, wrong sums included (C151_any), and the integer that the expression stands for if each operation is right in one thread (C168_right_values_partial). C168_same_code: the programs that the threads run, run alone, are the functions of C41-C61. Finishing is proved for endless schedules in which the thread takes steps again and again. Sequentially consistent steps, as in C62; a slice is read in the step in which get returns it; powers with exponents up to the fuel. |
| C169 | `distance_squared` and `distance` over Flocq floats with any `powf` (IeeeDistModel.v) | the rounding lemmas of C138 for the differences and the sum, the error of `powf` as a hypothesis, a square root that cannot underflow; case analysis on the kinds of floats for the symmetry; witnesses for the missing metric laws | **proved**. powf is a parameter: Rust does not specify its rounding, so the theorems take its error on squares as a hypothesis; a correctly rounded one meets it with e = u and h half the smallest float (C169_demo). C169_no_metric has the two counterexamples for f64. Uses the axioms behind Coq's real numbers, as Flocq does. |
| C170 | `gauss_elim!` over Flocq floats, for `Matrix` and `DynMatrix` (MatrixModel.v, IeeeModel.v) | invariant of the loop over the columns: each reduction adds one row to the sum and one factor 1 + u to the bound (GaussFloatProofs.v); a finite result makes all intermediate entries finite; witnesses for the entry left over and for the lost entry | **partial**. False as stated (C170_refuted): the loop also recomputes the entry in the pivot's own column as x - p * (x / p), which rounding need not make zero: 49 1 / 53 1 keeps -2^-47 below its first pivot, so the result is not an echelon form, and its rank can be too large. Everything else in the statement is proved (C170_backward_partial for Matrix, C170_dyn_partial for DynMatrix), including the bound for what is left over. The multipliers are not bounded: the pivot is the smallest non-zero entry, so two matrices with entries of size at most 1 that differ by 1 in an entry reduce to the same result (C170_lost_refuted). Uses the axioms behind Coq's real numbers, as Flocq does. |
| C171 | expressions over the `Element*` and `Bitwise*` traits (LimbExprModel.v calling ElementModel.v and BitwiseModel.v) | induction on the expression with the exactness of each algorithm (C01, C03, C05, C08, C11, C13) and the fact that none returns an empty vector; `shrink` identifies vectors of the same value | **partial**. Exact value and exact failure condition for every expression (C171_exact_partial); interchangeable algorithms up to leading zeros without overflow checks (C171_interchangeable_partial). With overflow checks Element shr panics where Bitwise shr works, and without shrinking the leading zeros differ (C171_refuted). |
| C172 | programs of `*_overflowing`, `not` and `shl_checked` calls on buffers (BufProgModel.v) | invariant: the contents are the integers of the unlimited run modulo 2^bits, because each step is a ring operation; induction on the program for the flags | **proved**. Reduction once at the end (C172_modular), no false alarms (C172_no_alarm), no missed overflow for sums and differences (C172_reports). A checked shift by more than the buffer reports and changes nothing (C172_refused). That a product may overflow without a report is C07. |
| C173 | `Interner` with calls made and panics raised by `eq`, `into` and `drop` of the elements (InternCallModel.v) | mutual induction on the fuel of the nested run, with an invariant (counts, values, references lost) and a frame condition for what element code leaves alone; two styles of programs for which the frame holds; witnesses for the others | **partial**. False as stated. C173_panic_refuted: a conversion that panics leaves its slot counted but empty, and get on that id is undefined behaviour (unwrap_unchecked on None) in safe code. C173_conversion_refuted, C173_comparison_refuted, C173_destructor_refuted: element code that adds the value a slot held before while that slot is being refilled is handed the slot, which then changes value under it. Proved, for programs whose element code never adds and for programs that never release, with any nesting and any caught panics: every get through an id with references gives the one value it was handed out for, at every moment of the run (C173_values_partial), and panics lose at most one reference per call of add that panicked (C173_counts_partial). Exactly: a panicking comparison changes nothing (C173_comparison_partial), a panicking conversion changes one id in the way stated (C173_conversion_partial), a panicking destructor leaves the new value in place counted for nobody (C173_dropped_partial), and these panics come out of add exactly when stated (C173_panics_partial, C173_compared_partial). C173_plain_partial ties the model to that of C59. |
| C174 | `Drop for UnsyncLinked` with destructors that unwind (ListPanicModel.v) | the walk of C118 cut at the first destructor that does not return; what is left allocated as a permutation | **partial**. False as stated (C174_refuted: two values, the destructor of the first panics, the second is never dropped and its node never freed). Proved for all states the threads can reach: destructors that return are called once each in order and all is freed; at the first that panics the values up to it have been dropped once, the nodes behind it are leaked with exactly the values behind it, and nothing is freed twice or read after it was freed (C174_list_partial). C174_chunk_partial: inside one chunk of an interner the other slots are still dropped, and a second panic aborts. |
| C175 | `Interner::with_capacity` in `usize` arithmetic (InternCapModel.v) | invariant of C59; an `add` that grows passed every slot, all of them with references | **partial**. False as stated (C175_refuted: usize::MAX; C175_large_partial: the 32 largest capacities panic in a build with overflow checks, and all but one of them give an interner without slots in a build without). Proved for all other capacities and all histories: the slots made are enough, fewer than 32 too many, and the list of chunks stays as made while fewer than capacity ids have references at each add (C175_room_partial). |
| C176 | the list of WeakListModel.v with plain accesses to other memory between the calls (WeakDataModel.v); `happens_before` over a history (WeakDataSpec.v) | invariant: a view that has the link to an element has every access that happens before its push; a thread has every access that happens before its next step | **proved**. For the memory model of WeakListModel.v (release/acquire/relaxed by views, no load buffering). happens_before is read off the history of calls and accesses. len as in C119: a first call of len by a thread that knows of no element races on its own. |
| C177 | the same, an element standing for the place of its insides | C176, with the edges through the element that gave access; witness with two writers | **partial**. False as stated (C177_any_element_refuted: `unsafe impl<T> Sync` has no bound on T; two threads get a reference to the same element and write inside it, as with a Cell or Rc). Proved when the insides of an element are written only by the thread that makes it and before it is in the list (C177_frozen_partial). An element is identified with the place of its insides. The interner is shareable for every element type by the same lines (its list is the only part that could prevent it). |
| C178 | the model of C119/C120 | a rank of the position inside the call, from what the thread has seen and the final length, that every step of its own lowers whatever the load returns | **proved**. The counterpart of C102_returns_among_others for the memory model of WeakListModel.v: after an exchange that failed the thread has seen the link, so the load after it is not stale. The allocator is outside the model. |
| C179 | the model of C122 with and without the lock | invariant: counts equal handles plus arriving adds; what a handle was born with bounds the messages it can still read, and all of them are nonzero, because each appended one is a positive count while the handle lives | **proved**. Over the model of C122 (WeakInternModel.v with the chunk list of WeakChunkModel.v), for add without the lock as in the code and with it. The count of a slot is that of its last message; between raising a count and writing the value an add is counted too. What is not kept without the lock is which value a held id stands for (C62, C122). Counts do not wrap (C61). |
| C180 | the same | a rank of the position inside the call, from the number of chunks at the end, that every step of its own lowers | **proved**. A walk along the chunk list and a push are one step each here; C178 bounds the steps inside them. For the model with sequentially consistent memory see C165. The lock of the locked variant is outside: a call of add begins when it has the lock. |
| C181 | the programs of C168 run on the interner of C122 under weak memory (WeakArithModel.v) | the weakest preconditions of C168 unchanged; the invariant of C168 over what callers see of the weak interner, with the invariants of C122 (lock, or turns) for what the calls return; progress by the number of steps that the call of a thread still needs, then by its program (WeakArithFinish.v); a witness for the refutation | **partial**. False as stated (C181_refuted: two threads convert 5*2^64 and 7*2^64 from u128, the second when the first has finished but without having learnt of it; the accesses race, and the second number takes the place of the first). Proved when the threads take turns in making numbers that are not small, the turn being handed over by some synchronisation between calls (C181_turns_partial), and with a lock around add, which the code does not have (C181_locked_partial); clones, drops, reads and small results need no turn. In both cases no thread is ever stuck (with the lock: never all of them) and a thread that goes on again and again finishes (C181_no_deadlock_partial, C181_finishes_partial, C181_locked_no_deadlock_partial, C181_locked_finishes_partial). Further conditions: the interner has at most 2^62 slots and divisors and shift amounts are within the limits of C46, C50 and C51; the result is that of one thread, wrong sums included (see C168_right_values_partial). The programs are those of C168 (C168_same_code); counts do not overflow in the weak memory model; BigInts pass from thread to thread before the evaluations begin only. |
| C182 | comparisons, equality, conversions and binary text as programs of the kind of C168, on the interner of C122 under weak memory (WeakReadModel.v); answers specified in WeakReadSpec.v | weakest preconditions in which a call of add is forbidden (WeakReadWp.v); with the invariant of C181 no execution then makes a call that turns are about, nor adds a slot (WeakReadProofs.v), so that the invariant of C122 holds along the whole run; progress as for C181 | **proved**. C182_answers, for any number of threads, any earlier history in turn (in_turn of C122) after which no thread is inside a call, any schedule and any stale reads: right_answer of WeakReadSpec.v gives the answers in terms of the integers alone (known defects of one thread included: C47's order, C49 and C100's signs and saturation, C56's unsigned types). No condition is put on the execution after the questions begin. C182_no_deadlock and C182_finishes: progress; C182_same_code: the programs that the threads execute are, run by one thread, the functions of C42, C47-C49, C56, C100, C107. question_ok excludes what panics for one thread (C56: least value of a signed type in a debug build; C100: i128 from 2^127) and what would call add (bounds of 64- and 128-bit types, results from 2^62 on, shifts), for which C181 applies. |
| C183 | nothing new: both sides are expressions of C151, compared with the == of C42 | by C151_any both sides are known integers (wrong results included), so that each law becomes a statement about integers; witnesses for the laws that fail | **partial**. False as stated (C183_refuted: -7 + 9 is not 9 + -7, and associativity, distributivity, the division identity and the commutativity of & fail as well; the sums are those that C44 shows wrong, the remainder C46's, & C98's). For every law the exact condition under which == answers true is proved, for all integers and stores (C183_addition_partial, C183_multiplication_partial, C183_division_partial, C183_bits_partial): the laws of * and pow, x * y / y, x - x, x + -x, x + 0 and (x << n) >> n hold without conditions on signs (divisions, powers and shifts within the limits of C46, C55 and C51; Minus of zero is left out, C43). + associates exactly if both ways are off by the same amount (same_error), always for numbers of equal sign. |
| C184 | `Fixed<I<K>, N>` (FixedIModel.v) over IModel.v; the shifts of `I<K>` panic, as `todo!()` does | from C36-C40 by dividing by 2^N; witnesses for the refutation | **partial**. False as stated (C184_refuted: 1.5 * 1.5 = 4.5 with one fraction bit, 1/256 > 1 with eight in two bytes, \|-1/2\| = 16383.5, and floor and round panic on every value because the shifts of I<K> are todo!()). Proved: + - and negation exact exactly when in range, wrapping otherwise, in every build (C184_sums); ==, zero, bounds and signs (C184_constants); products too large by 2^N, or wrapped (C184_mul_partial); order of numbers of different signs or that differ in one byte (C184_cmp_partial); abs for every value (C184_abs_partial); / and % never panic and satisfy the division identity with the scale lost, modulo 2^(8K-1-N) (C184_div_partial); from_val, one, is_one and all rounding panic on every value (C184_panics_partial). |
| C185 | nothing new: UModel.v and IModel.v; the laws are stated for any type in LawSpec.v | each expression stands for an integer modulo 2^(8N), so that a law is an equation of integers; bit operators bit by bit from C32; the sums with overflow checks by cases from C26; the division identities from C29, C28 and C16_congruence_partial; witnesses for the laws that fail | **partial**. False as stated (C185_refuted: with overflow checks 511 * 255 panics while 255 * 511 silently wraps around, a quotient and remainder of U<2> whose sum panics, and -7 / 2 * 2 + -7 % 2 and 7 / -2 * -2 + 7 % -2 in I<2>). Proved: the ring laws for I<N> in every build and for U<N> without overflow checks (C185_rings); the laws of the bit operators and their relations to + and - (C185_bits); sums and differences of U<N> in every build, panics included, and saturating sums (C185_checked_sums); products with overflow checks when the exact products fit (C185_products_partial); the division identity of U<N>: always without overflow checks, whatever the quotient, and with them a or a panic, never another value, and a for divisors up to 128 (C185_division_partial); the division identity of I<N> exactly, by signs: always for non-negative operands, otherwise only for a = -2^(8N-2), or a = 0 or 2^(8N-2) with the right parity of the quotient, or, both negative, for odd quotients (C185_signed_division_partial). |
| C186 | nothing new: UCompoundModel.v (C160) | every matrix, complex number or vector stands for one of integers modulo 2^(8N) by C160, operations act on what they stand for, and a law becomes an identity of finite sums of integers | **proved**. C186_matrices, C186_complex and C186_cross; C186_checked_sides shows that with overflow checks one side may panic where the other returns (0 * (511 * 255) in U<2>), so that only 'whenever both return' can hold there. |
| C187 | nothing new: RatModel.v and RatExprModel.v (C155) | every operator ends in `new`, so both sides are made by `new` from fractions equal by C155_exact, and C80_exact_partial says when `==` sees that; `new` applied to what `new` made gives it back; witnesses for the laws that fail | **partial**. False as stated (C187_refuted, with i8 and nothing overflowing: (1/2+1/6)+1/3 is 9/9 and 1/2+(1/6+1/3) is 36/36, which == tells apart; 1/2+1/2 == 1 and (1/2)/(1/2) == 1 are false; 1/3-3/4 is 5/-12 where -(3/4-1/3) is -5/12). Proved: + and * commutative exactly, panics and wrapping included; 0 and 1 neutral exactly for every rational made by new, in every build; x-x and x*0 give 0/1; and for any two expressions of equal value that evaluate without overflow and are not a bare unary minus, == is true when that value is 0 or neither a whole number nor one over a whole number (C187_laws_partial; the usual laws in C187_usual_partial). |
| C188 | nothing new: FixedModel.v; the laws are those of LawSpec.v (C185), expressions `feval` in PropFixedLaws.v | every expression stands for an integer modulo 2^bits; one() is even when there is a fraction bit, so x * (one() - 1) is a multiple of 2^bits only for x = 0; truncated division of integers; witnesses for the laws that fail | **partial**. False as stated (C188_refuted: with one fraction bit 1.5 * one() is 3, 1.5 / one() is 0.5, 1.5 / 1.5 is 0.5; with overflow checks 127 + 1 + -1 panics where 127 + (1 + -1) is 127). Proved: without overflow checks a commutative ring with unary minus, whose unit is the smallest positive number; one() is neutral for x, under * and under /, exactly if x = 0 or there are no fraction bits, in both builds, and x / x is one() exactly if there are no fraction bits; equal polynomials give equal numbers, always without overflow checks and with them when both sides return; the division identity and trunc + fract in every build, with exactly the operands where / and % panic. |
| C189 | nothing new: CompoundIntModel.v, MatrixModel.v | every operator returns its textbook result modulo 2^bits or, with overflow checks, panics; so every matrix, complex number or vector stands for one of integers modulo 2^bits, and a law becomes an identity of finite sums of integers | **proved**. C189_matrices, C189_complex and C189_cross; C189_checked_sides shows that with overflow checks one side may panic where the other returns (0 * (100 * 2) in i8), so that only 'whenever both return' can hold there. |
| C190 | CompoundEqModel.v: the derived `==` and `Hash` and `Default` of vector.rs, static.rs and dynamic.rs, for any element equality and any hasher | slice equality is equal length and equal elements at equal positions; what a hasher is given is the length and the elements, read back by a recording hasher; rows and columns through the row-major order of C91 | **proved**. The derives are modelled as the language defines them: slices by length and then element by element, structs field by field. C190_transpose is for element types that have a value. Specialised comparisons and hash_slice overrides of core for primitive elements are not modelled apart. |

## Defects found in the code

Each is a `…_refuted` theorem: a concrete input evaluated in the model.

* `bits`: subtraction with a borrow and an even difference is two too small (C03); overflow of
  in-place multiplication is missed (C07); `shl_wrapping` masks by a power of two below the bit length
  (C10); debug `ElementShr::shr` panics from one limb on (C11); in-place right shift leaves the top
  bits behind (C12); comparison starts at the least significant limb (C14), which breaks division
  (C16, C17, also non-termination); `set_push` loses the value (C19); `BitIter::len` (C22);
  `BitwiseAdd::add_in_place` panics for all operands (C124).
* `ints`: what follows for `U` and `I` (C28, C29, C30, C31, C35, C38, C40), `0^0 = 0` (C33), casts
  panic when the primitive is narrower (C34), `I::abs` clears the sign bit (C37); for `BigInt`:
  negative zero (C43), sums of opposite sign (C44), division (C46), order (C47), signed conversions
  lose the sign (C49, C99, C100), `i128::try_from` turns `i128::MAX + 1` into `Ok(i128::MIN)` (C49), debug right shift (C51), negative numbers print as `-0` (C53),
  unsigned equality ignores the sign (C56), bit operators on negatives (C98), `approx_float` drops the
  sign and gives NaN for some large numbers (C106).
* `utils`: a value can be interned twice (C60); two concurrent adds can take one slot (C62); the length
  returned by a racing `push` is wrong (C64); `len` follows a relaxed load of the head, a data race
  (C119); two calls of `add` race on the value of a slot even one after the other (C122); the reference
  from `get` outlives its slot, and `incr` of a made-up id makes `get` read an absent value, both in safe
  code (C123).  The list is `Send` and `Sync` for every element
  type, so safe code can race on a shared `Cell` (C177).
* `traits`: `gcd` on signed types (C67), `saturate_from(isize)` (C68), shift amounts and exponents cut
  to 32 bits (C70, C71), `WrappingAdd` subtracts (C72), `NonZero::is_one` (C73), `is_positive(0)` (C96);
  `min_positive` of floats is not the least positive float (C112), `u128` saturates to an infinite `f32`
  (C113), floats saturate toward zero rather than to the nearest integer (C114), `floor`, `ceil` and
  `trunc` of negative floats go the other way than the trait documents (C121); `cbrt` and odd roots of
  negative floats are NaN (C127).
* `reals`: `Fixed` mul, div, round, Debug and Binary (C76, C78, C104, C143), `one()` is -1 when 1 is not
  representable (C108, C134), `fract`, `trunc` and order over `U<K>` (C131),
  rounding, products and panics over `BigInt` (C133); `Rat::is_one` on 2/2 (C109); `Rat::new(-128i8, 5)` panics (C79),
  equality (C80), ceil and round (C81), signs (C82); posit negation exchanges zero and NaR (C83).
* `compounds`: `row_reduce` panics for non-square matrices (C90); `DynMatrix` and `MatrixRef` bounds
  checks (C91), `swap_rows` with indices whose offset wraps (C126); `Complex / scalar` overflows over integers (C136);
  over floats `Complex::abs` and division overflow and underflow needlessly (C139, C141), `determinant` picks
  the smallest pivot and so may lose every digit, and panics at NaN (C140); row reduction of floats
  leaves rounding residue below the pivots, so its result is not an echelon form (C170).
* `static-iter`: iterators over owned arrays that stop early or panic leak elements, so `Vector::checked_add` leaks when it overflows (C146); a caught panic of `Vector / Vector` of BigInts leaks the elements behind it, whose slots of the interner stay in use for ever (C159).

## What is not modelled

* Floating point: `F<N>` beyond byte and bit conversions.  `log`, `root`, `cbrt`, `Pow` and `TrigOps`
  are modelled in exact real arithmetic only (C127-C129): no rounding, overflow,
  underflow or signed zeros, and NaN and infinities are one value.  Sums, products, dot products, matrix
  products, `determinant`, `row_reduce`, complex products, quotients and `abs`, and `Vector::distance` are modelled with IEEE 754
  rounding (C138-C141, C169 and C170, IeeeModel.v, IeeeDistModel.v); there all NaNs are one value, and `sqrt` is the correctly rounded one.
* Functions that are `todo!()`: `Fixed::pow`, `log`; `Rat` order, `rem`, `pow`, `trunc`, `fract`, `log`,
  `sqrt`; posit arithmetic.
* `Fixed` over `I<N>` (its shifts are `todo!()`, so `one()` panics); `Rat` over anything
  but primitive integers (`Gcd` is implemented for nothing else); `Rat`'s `BoundedSigned`.
* The generators of `rand`.
* Memory orderings weaker than sequential consistency: modelled for the list (C118-C120: views,
  release/acquire/relaxed, no load buffering) and for the interner (C122, the same views), while
  C61-C65 and C101-C102 are sequentially consistent; address reuse; allocation failure; `usize`
  overflow of list lengths.  In Rust the unsynchronised accesses of C62 are data races, hence undefined
  behaviour; C62's model shows them as ordinary interleaved accesses, C122's logs them as races.
* Interner capacity: at most 2^61 interned values at a time (ids have 62 bits), and no value with 2^64 - 1
  references at once (counts have 64 bits); both are hypotheses of the theorems concerned.  `C59_full_count`
  says what one reference more does, `C61_condition` that short executions never get there.
* Methods of Rust's standard library are modelled by their documentation (`PrimModel.v`,
  `FixedModel.v`): primitive arithmetic, `leading_zeros`, `array::from_fn`, `Iterator::min_by`, ...
* Compound types: element operators are functions.  They may panic for vectors and static iterators, and
  for complex numbers, cross products and matrix products (C135-C137); for `determinant`,
  `row_reduce` and the wedge product they may not (except division): these require `RealSigned`, which in
  the workspace only `f32` and `f64` implement.

## Wrong programs

`seeded/LOG.jsonl` records edits of the model made in a scratch copy, with two further keys where known: `result`,
and `stopped_at`, the place where the build stopped.  First come the edits written by hand as realistic bugs, then the generated
ones: operators, constants, comparisons and variables of the definitions in turn.  Generated edits that do not type-check (some
2600) are left out; for the others `claim` gives the titles of the properties whose theorems failed.

How to read it:

* `failed` means that the proof as written no longer goes through.  For about seven in ten of the hand-written edits with a
  `stopped_at` the build stops at a lemma or another theorem that the named theorem uses, not at the theorem itself.  This does not
  by itself show that the theorem's statement became false.  Where that was noticed `note` says so; it was not checked for every line.
* Edits that survive are listed, with `failed` empty.  For hand-written ones `note` gives the reason if one is known (most were aimed at
  a definition the theorem does not depend on).  The generated survivors (about 200) survived the theorems there were when
  they were run.  Earlier versions of this file called them all equivalent; that was wrong.  Most exchange a `dbg` flag, or one kind of failure
  for another, on a path that is not reached.  Others change results: those of `fu_is_one`, `fu_is_zero`, `fu_min_value`, `fu_max_value`,
  `fx_from_raw`, `f64_fmt`, `fp_cmp` and `f_cdiv_scalar` were run again (among the last hand-written lines) and make present theorems fail.
  `powi` is called on one finite constant only.  The rest were not run again and are not settled; `default_options`, which only
  examples use, is among them.  `mul_add` of an infinity and zero was run again: the lemma that ties it to Flocq's operation fails, but whether
  the theorem that uses the lemma reaches that case was not determined.
* Versions of this log before the one that introduced `result` listed almost only edits that made a proof fail, at most two generated
  ones per definition, and always named the intended theorem as the one that failed.

## Trusted base

* The Coq 8.16.1 kernel (with `vm_compute`) and the standard library; MathComp 1.x and SSReflect as
  libraries, for `PropMatrix.v` and `DetProofs.v` only; Flocq's `binary_float` and its correctness
  theorems, for `Ieee*.v`, `PropIeee*.v`, `FpFlocq.v` and `PropFloatFlocq.v` only.
* The transcription of the Rust code into the `*Model.v` files, and the statements of the theorems.
  As a check of the transcription `ModelTests.v` evaluates the crates' own unit tests (all but the
  multi-threaded ones; floats as rationals) in the model: every assertion holds there.
* `Print Assumptions` answers "Closed under the global context" for each of the 801 theorems listed
  in `MANIFEST.json` except those of C127-C129 (`PropRealOps.v`) and C138-C141, C169 and C170 (`PropIeee.v`, `PropIeee2.v`, `PropIeeeDist.v`, `PropIeeeGauss.v`), and C112_doubles, C112_singles, C112_compare, C113_rounding (`PropFloatFlocq.v`), C106_doubles_partial (`PropApproxFlocq.v`), which are about Coq's
  real numbers and depend on axioms of the standard library behind them:
  `ClassicalDedekindReals.sig_forall_dec`, `ClassicalDedekindReals.sig_not_dec`,
  `FunctionalExtensionality.functional_extensionality_dep` and, for some, `Classical_Prop.classic`.
* `coqchk -o` additionally lists constants such as `Coq.ssr.ssrunder.Under_rel.*`,
  `mathcomp.ssreflect.bigop.BigOp.bigop` or `mathcomp.ssreflect.fintype.CardDef.card`.  They are
  components of module *signatures* by which MathComp seals its own definitions (the modules are
  implemented by definitions in the same files), they appear because `coqchk` lists the parameters of
  module types, and no theorem here depends on one as an axiom.
* No axiom, parameter, section-less variable, admitted proof, functor, module type, plugin or disabled
  kernel check in this development.
