{"id": "C01", "title": "Limb access agrees with the byte encoding", "statement": "For every multiprecision integer view (big-endian bytes, little-endian bytes, native limbs) loading limb i returns exactly the i-th base-2^LIMB_BITS digit of the integer the buffer's bytes encode, also when the buffer length is not a multiple of the limb size; storing a limb that fits changes that digit and nothing else, and never changes the buffer's length.", "quantifier": "all three buffer kinds, all buffer contents, all lengths (aligned or not), all limb indices, all limb values that fit, both limb widths, debug and release builds", "why_tests_cant": "the high limb may be partial, and off-by-one indexing errors show up only for particular (length, index) pairs; there are unboundedly many lengths", "anchors": ["src/limbs_buffer.rs: be_mp_load_l, le_mp_load_l, be_mp_store_l, le_mp_store_l, MpUIntCommon::load_l, MpMutUInt::store_l"]}
{"id": "C02", "title": "Clearing bytes above/below a position", "statement": "clear_bytes_above(n) makes the represented integer v become v mod 256^n, clear_bytes_below(n) makes it v - (v mod 256^n), for every n up to the buffer length (including n not on a limb boundary).", "quantifier": "all buffer kinds, contents, lengths and byte positions", "why_tests_cant": "byte positions inside a limb, inside the partial high limb and at the boundaries are distinct code paths for each buffer kind and each length", "anchors": ["src/limbs_buffer.rs: MpMutUInt::clear_bytes_above, clear_bytes_below, be_mp_clear_bytes_above, le_mp_clear_bytes_above"]}
{"id": "C03", "title": "Clearing bits above/below a position", "statement": "ct_clear_bits_above_mp(b, n) and clear_bits_above_mp(b, n) leave v mod 2^n in b; ct_clear_bits_below_mp(b, n) and clear_bits_below_mp(b, n) leave v - v mod 2^n, for every n, including n larger than the buffer.", "quantifier": "all buffer kinds, contents, lengths and bit positions", "why_tests_cant": "the constant-time variants walk over all limbs with masks; only a universally quantified argument covers every (length, position) pair", "anchors": ["src/limbs_buffer.rs: ct_clear_bits_above_mp, clear_bits_above_mp, ct_clear_bits_below_mp, clear_bits_below_mp"]}
{"id": "C04", "title": "Copying preserves the value", "statement": "dst.copy_from(src) leaves dst's length unchanged and makes dst represent exactly the integer src represents, for any combination of buffer kinds with dst.len() >= src.len() (or otherwise compatible), zero-filling the excess.", "quantifier": "all pairs of buffer kinds, contents and lengths", "why_tests_cant": "nine combinations of encodings, each with unaligned heads", "anchors": ["src/limbs_buffer.rs: MpMutUInt::copy_from, len_is_compatible_with"]}
{"id": "C05", "title": "Conditional copy", "statement": "dst.copy_from_cond(src, c) behaves like copy_from when c is true and leaves dst unchanged when c is false.", "quantifier": "all pairs of buffer kinds, contents, lengths and both conditions", "why_tests_cant": "value dependent masks; wrong masks only show for length-mismatched operands", "anchors": ["src/limbs_buffer.rs: MpMutUInt::copy_from_cond, clear_bytes_above_cond"]}
{"id": "C06", "title": "Single bit access", "statement": "test_bit(i) is 1 exactly if bit i of the represented integer is set; set_bit_to(i, b) makes bit i equal to b and leaves every other bit alone.", "quantifier": "all buffer kinds, contents, lengths, in-range bit positions", "why_tests_cant": "unbounded number of (length, position) pairs and bit patterns", "anchors": ["src/limbs_buffer.rs: MpUInt::test_bit, MpMutUInt::set_bit_to"]}
{"id": "C07", "title": "Bit and byte scans over multiprecision integers", "statement": "ct_find_last_set_bit_mp returns the bit width of the integer (0 for zero); ct_find_first_set_bit_mp returns (true, position of the lowest set bit) or (false, _) for zero; find_last_set_byte_mp / find_last_set_limb return the minimal number of bytes / limbs holding the integer.", "quantifier": "all buffer kinds, contents and lengths", "why_tests_cant": "branchless accumulation over limbs must be right for every bit pattern", "anchors": ["src/limbs_buffer.rs: ct_find_last_set_bit_mp, ct_find_first_set_bit_mp, find_last_set_byte_mp, find_last_set_limb"]}
{"id": "C08", "title": "Conditional swap", "statement": "ct_swap_cond_mp exchanges the two represented integers exactly if the condition is true and leaves both unchanged otherwise.", "quantifier": "all pairs of equal length buffers of any kind, both conditions", "why_tests_cant": "all contents", "anchors": ["src/limbs_buffer.rs: ct_swap_cond_mp"]}
{"id": "C09", "title": "Split buffers act as one integer", "statement": "A CompositeLimbsBuffer built from up to three segments behaves like one integer: loading and storing limbs anywhere, including limbs that straddle segment boundaries, is the same as on the concatenated bytes.", "quantifier": "all segment counts, all segment lengths, all contents, all limb indices", "why_tests_cant": "limbs can straddle a boundary at any byte offset; the offsets form an unbounded family", "anchors": ["src/limbs_buffer.rs: CompositeLimbsBuffer::new, load, store, limb_index_to_segment"]}
{"id": "C10", "title": "Limb comparisons and masks are exact", "statement": "The branchless limb primitives compute what their names say: is-zero/is-nonzero, ==, !=, <, <=, >, >=, LimbChoice select/not/and/or, the low-bit mask of n bits for 0 <= n <= LIMB_BITS, negation, arithmetic right shift.", "quantifier": "all limb values (2^64 or 2^128 combinations), all shift distances", "why_tests_cant": "the input space is far too large to enumerate; carry tricks fail on isolated values", "anchors": ["src/limb/mod.rs: LimbChoice, ct_is_nonzero_l, ct_is_zero_l, ct_eq_l_l, ct_lt_l_l, ct_leq_l_l, ct_gt_l_l, ct_geq_l_l, ct_lsb_mask_l, ct_arithmetic_rshift_l, ct_negate_l"]}
{"id": "C11", "title": "Limb add, subtract, multiply are exact and independent of the chosen backend", "statement": "ct_add_l_l(_c), ct_sub_l_l(_b), ct_mul_l_l, ct_mul_add_l_l_l_c and ct_mul_sub_l_l_l_b return the exact double-width result, with no overflow in their intermediate steps; the x86_64 assembly backend returns the same values as the portable one.", "quantifier": "all operand and carry values, both limb widths, both backends", "why_tests_cant": "2^192 input combinations for multiply-add", "anchors": ["src/limb/mod.rs: generic_ct_add_l_l, ct_add_l_l_c, generic_ct_sub_l_l, ct_sub_l_l_b, generic_ct_mul_l_l, ct_mul_add_l_l_l_c, ct_mul_sub_l_l_l_b", "src/limb/x86_64_math.rs: ct_add_l_l, ct_sub_l_l, ct_mul_l_l"]}
{"id": "C12", "title": "Double-limb by limb division is exact", "statement": "For every nonzero divisor v and every double limb u with u.high < v, a CtLDivisor (constructed either way) and a NonCtLDivisor return the exact quotient and remainder, and constructing from zero is an error.", "quantifier": "all divisors, all dividends whose quotient fits, both limb widths, both backends", "why_tests_cant": "the multiply-by-reciprocal method has rare off-by-one corners over a 2^192 input space", "anchors": ["src/limb/mod.rs: CtLDivisor::new, nonct_new, ct_compute_m, do_div, GenericNonCtLDivisor::do_div", "src/limb/x86_64_math.rs: NonCtLDivisor"]}
{"id": "C13", "title": "Limb inverse modulo the limb radix", "statement": "ct_inv_mod_l(v) returns the unique r with v*r = 1 mod 2^LIMB_BITS for every odd v.", "quantifier": "all odd limbs, both widths", "why_tests_cant": "2^63 odd values", "anchors": ["src/limb/mod.rs: ct_inv_mod_l"]}
{"id": "C14", "title": "Limb bit scans", "statement": "ct_find_last_set_bit_l returns the bit width of the limb, ct_find_last_set_byte_l the number of significant bytes, ct_find_first_set_bit_l the number of trailing zeros (LIMB_BITS for zero).", "quantifier": "all limb values", "why_tests_cant": "2^64 values", "anchors": ["src/limb/mod.rs: ct_find_last_set_bit_l, ct_find_last_set_byte_l, ct_find_first_set_bit_l"]}
{"id": "C15", "title": "Branchless usize comparisons", "statement": "ct_eq/lt/leq/gt/geq on usize return exactly the truth value of the comparison.", "quantifier": "all usize pairs, 32 and 64 bit usize", "why_tests_cant": "2^128 pairs", "anchors": ["src/usize_ct_cmp.rs"]}
{"id": "C16", "title": "Multiprecision comparison", "statement": "ct_eq, ct_neq, ct_lt, ct_leq, ct_gt, ct_geq on two multiprecision integers (and ct_is_zero, ct_is_one, ct_leq_mp_l) return exactly the truth value of the comparison of the represented integers, for operands of any, possibly different, lengths and encodings.", "quantifier": "all pairs of buffers of all kinds and lengths", "why_tests_cant": "different lengths and encodings, borrow propagation over unboundedly many limbs", "anchors": ["src/cmp_impl.rs: ct_eq_mp_mp, ct_leq_mp_mp, ct_lt_mp_mp, ct_geq_mp_mp, ct_gt_mp_mp, ct_is_zero_mp, ct_is_one_mp, ct_leq_mp_l"]}
{"id": "C17", "title": "Addition", "statement": "ct_add_mp_mp(op0, op1) with op1 not longer than op0 stores (op0 + op1) mod 256^len(op0) and returns the carry out, so that result + carry*256^len(op0) is the exact sum; the conditional form adds 0 when the condition is false; ct_add_mp_l adds a limb likewise.", "quantifier": "all operand values, lengths, encodings, conditions", "why_tests_cant": "carry chains of unbounded length, partial high limbs", "anchors": ["src/add_impl.rs: ct_add_cond_mp_mp, ct_add_mp_mp, ct_add_mp_l"]}
{"id": "C18", "title": "Subtraction and negation", "statement": "ct_sub_mp_mp(op0, op1) stores (op0 - op1) mod 256^len(op0) and returns the borrow, exactly; the conditional form subtracts 0 when the condition is false; ct_sub_mp_l likewise; ct_negate_mp stores the two's complement.", "quantifier": "all operand values, lengths, encodings, conditions", "why_tests_cant": "borrow chains of unbounded length, partial high limbs", "anchors": ["src/add_impl.rs: ct_sub_cond_mp_mp, ct_sub_mp_mp, ct_sub_mp_l, ct_negate_cond_mp, ct_negate_mp"]}
{"id": "C19", "title": "Modular addition and subtraction", "statement": "For op0, op1 < n, ct_add_mod_mp_mp stores (op0 + op1) mod n, ct_sub_mod_mp_mp stores (op0 - op1) mod n and ct_negate_mod_mp stores (-op0) mod n, in the whole of op0.", "quantifier": "all moduli, all reduced operands, all admissible lengths and encodings", "why_tests_cant": "wrap-around at the modulus and at the buffer width interact, for every width", "anchors": ["src/add_impl.rs: ct_add_mod_mp_mp, ct_sub_mod_mp_mp, ct_negate_mod_mp"]}
{"id": "C20", "title": "Left shift", "statement": "ct_lshift_mp(b, d) stores v*2^d mod 256^len and returns exactly the limb shifted out at the top, for every distance, including distances beyond the buffer's width.", "quantifier": "all contents, lengths, encodings, shift distances", "why_tests_cant": "whole-limb and sub-limb parts combine with partial high limbs", "anchors": ["src/shift_impl.rs: ct_lshift_mp"]}
{"id": "C21", "title": "Right shift", "statement": "ct_rshift_mp(b, d) stores floor(v / 2^d) and returns exactly the bits last shifted out, for every distance.", "quantifier": "all contents, lengths, encodings, shift distances", "why_tests_cant": "whole-limb and sub-limb parts combine with partial high limbs", "anchors": ["src/shift_impl.rs: ct_rshift_mp"]}
{"id": "C22", "title": "Multiplication", "statement": "ct_mul_trunc_mp_mp(op0, op0_in_len, op1) stores the product of op0's low op0_in_len bytes and op1 truncated to op0's length; the full product if it fits. The conditional form multiplies only if the condition holds.", "quantifier": "all operand values, lengths, encodings, conditions", "why_tests_cant": "in-place schoolbook multiplication where the output overlaps an input; carry chains of unbounded length", "anchors": ["src/mul_impl.rs: ct_mul_trunc_cond_mp_mp, ct_mul_trunc_mp_mp"]}
{"id": "C23", "title": "Squaring", "statement": "ct_square_trunc_mp(op0, op0_in_len) stores the square of op0's low op0_in_len bytes truncated to op0's length.", "quantifier": "all values, lengths, encodings", "why_tests_cant": "the doubling trick for cross terms has carries past one limb; unbounded lengths", "anchors": ["src/mul_impl.rs: ct_square_trunc_mp"]}
{"id": "C24", "title": "Multiplication by a limb", "statement": "ct_mul_trunc_mp_l(op0, op0_in_len, l) stores op0's low part times l truncated to op0's length.", "quantifier": "all values, lengths, encodings", "why_tests_cant": "unbounded lengths and carries", "anchors": ["src/mul_impl.rs: ct_mul_trunc_mp_l"]}
{"id": "C25", "title": "Long division", "statement": "For a nonzero divisor v, ct_div_mp_mp leaves u mod v in u and floor(u / v) in the quotient buffer, if one is supplied and the quotient fits; otherwise it reports insufficient quotient space. Never a wrong quotient or remainder. ct_mod_mp_mp leaves u mod v.", "quantifier": "all dividends, all divisors, all lengths and encodings", "why_tests_cant": "quotient digit estimation has rare over-estimates (probability about 2^-63), which random tests do not reach", "anchors": ["src/div_impl.rs: CtMpDivisor::new, ct_div_mp_mp, ct_mod_mp_mp"]}
{"id": "C26", "title": "Division of powers of two", "statement": "ct_div_pow2_mp computes quotient and remainder of 2^k divided by v and ct_mod_pow2_mp the remainder, for every exponent k.", "quantifier": "all exponents, all divisors, all lengths", "why_tests_cant": "the dividend is virtual: digits are generated on the fly while the window slides", "anchors": ["src/div_impl.rs: ct_div_pow2_mp, ct_mod_pow2_mp"]}
{"id": "C27", "title": "Division of shifted integers", "statement": "ct_div_lshifted_mp_mp computes quotient and remainder of u*2^s divided by v (s a multiple of 8) and ct_mod_lshifted_mp_mp the remainder.", "quantifier": "all dividends, shifts, divisors, lengths", "why_tests_cant": "same as above, three code phases", "anchors": ["src/div_impl.rs: ct_div_lshifted_mp_mp, ct_mod_lshifted_mp_mp"]}
{"id": "C28", "title": "Division by a limb", "statement": "ct_div_mp_l returns u mod v and stores floor(u / v) in the quotient buffer, if supplied and large enough; ct_mod_mp_l returns u mod v.", "quantifier": "all dividends, lengths, encodings, nonzero limbs", "why_tests_cant": "unbounded lengths", "anchors": ["src/div_impl.rs: ct_div_mp_l, ct_mod_mp_l"]}
{"id": "C29", "title": "Montgomery reduction", "statement": "With n odd, R = 2^(LIMB_BITS*nlimbs(n)) and t < n*R, ct_montgomery_redc_mp leaves the unique r < n with r*R = t mod n.", "quantifier": "all odd moduli, all t < n*R, all lengths and encodings", "why_tests_cant": "carry handling at the top is only exercised for special values; unbounded lengths", "anchors": ["src/montgomery_impl.rs: ct_montgomery_redc_mp, CtMontgomeryRedcKernel, ct_montgomery_neg_n0_inv_mod_l_mp"]}
{"id": "C30", "title": "Montgomery multiplication", "statement": "For op0, op1 < n, ct_montgomery_mul_mod_mp_mp stores the unique r < n with r*R = op0*op1 mod n.", "quantifier": "all odd moduli, all operands, lengths, encodings", "why_tests_cant": "interleaved reduction with a carry limb kept aside; unbounded lengths", "anchors": ["src/montgomery_impl.rs: ct_montgomery_mul_mod_mp_mp"]}
{"id": "C31", "title": "Montgomery form conversion", "statement": "ct_to_montgomery_form_direct_mp and ct_to_montgomery_form_mp store a*R mod n; ct_montgomery_radix2_mod_n_mp stores R^2 mod n; converting and then reducing gives a mod n back.", "quantifier": "all odd moduli, operands, lengths", "why_tests_cant": "built on division and multiplication over unbounded sizes", "anchors": ["src/montgomery_impl.rs: ct_to_montgomery_form_direct_mp, ct_to_montgomery_form_mp, ct_montgomery_radix2_mod_n_mp"]}
{"id": "C32", "title": "Modular exponentiation", "statement": "ct_exp_mod_odd_mp_mp(result, base, n, e) stores base^e mod n for every odd modulus n, every base and every exponent; ct_montgomery_exp_mod_odd_mp_mp likewise in Montgomery form.", "quantifier": "all odd moduli, bases, exponents, lengths", "why_tests_cant": "exponent bit patterns and moduli are unbounded", "anchors": ["src/montgomery_impl.rs: ct_exp_mod_odd_mp_mp, ct_montogmery_exp_mod_odd_mp_mp"]}
{"id": "C33", "title": "Greatest common divisor", "statement": "ct_gcd_odd_mp_mp and ct_gcd_mp_mp compute the greatest common divisor of the two represented integers.", "quantifier": "all operand pairs, lengths, encodings", "why_tests_cant": "division-step algorithm with signed matrices and batches; correctness needs an invariant over all iterations", "anchors": ["src/euclid_impl.rs: ct_gcd_odd_mp_mp, ct_gcd_mp_mp, TransitionMatrix, batch_divsteps"]}
{"id": "C34", "title": "Modular inverse, odd modulus", "statement": "ct_inv_mod_odd_mp_mp(result, op, n) stores x < n with x*op = 1 mod n if gcd(op, n) = 1 and reports an error exactly if it is not invertible.", "quantifier": "all odd moduli, all operands", "why_tests_cant": "as for the gcd, plus cofactor tracking modulo n", "anchors": ["src/euclid_impl.rs: ct_inv_mod_odd_mp_mp"]}
{"id": "C35", "title": "Modular inverse, power of two modulus", "statement": "ct_inv_mod_pow2_mp(result, op, e) stores x < 2^e with x*op = 1 mod 2^e for odd op, and reports an error for even op.", "quantifier": "all odd operands, all exponents, lengths", "why_tests_cant": "Hensel lifting over unbounded widths", "anchors": ["src/invmod_impl.rs: ct_inv_mod_pow2_mp"]}
{"id": "C36", "title": "Modular inverse, any modulus", "statement": "ct_inv_mod_mp_mp computes the inverse for arbitrary (also even) moduli and reports non-invertible operands.", "quantifier": "all moduli > 1, all operands", "why_tests_cant": "CRT recombination of odd part and power of two part", "anchors": ["src/invmod_impl.rs: ct_inv_mod_mp_mp"]}
{"id": "C37", "title": "Least common multiple", "statement": "ct_lcm_mp_mp stores the least common multiple of its operands.", "quantifier": "all operand pairs, lengths", "why_tests_cant": "built on gcd, multiplication, division", "anchors": ["src/lcm_impl.rs: ct_lcm_mp_mp"]}
{"id": "C38", "title": "Composite screening never lies", "statement": "ct_composite_test_small_prime_gcd_mp reports composite only for integers sharing a factor with the product of small odd primes; no prime larger than the table's primes is reported; the embedded constants are exactly the product of the first odd primes.", "quantifier": "all integers, all lengths", "why_tests_cant": "all integers", "anchors": ["src/prime_impl.rs: ct_composite_test_small_prime_gcd_mp, SMALL_ODD_PRIME_PRODUCT"]}
{"id": "C39", "title": "Miller-Rabin decides strong probable primality and never rejects a prime", "statement": "For odd p > 2 and a base, ct_prime_test_miller_rabin_mp returns true exactly if p is a strong probable prime to that base; in particular it returns true for every prime p and base not divisible by p.", "quantifier": "all odd p, all bases, all lengths", "why_tests_cant": "all primes", "anchors": ["src/prime_impl.rs: ct_prime_test_miller_rabin_mp"]}
{"id": "C40", "title": "The prime wheel skips no prime", "statement": "Starting a PrimeWheelSieve at any lower bound, the running sums of the produced deltas enumerate in increasing order exactly the integers >= the bound (and >= 2) coprime to the wheel's primorial; hence no prime outside the wheel's factor base is ever skipped and no returned candidate is divisible by a wheel prime.", "quantifier": "all lower bounds of any length, all numbers of calls (histories)", "why_tests_cant": "the wheel's period is about 6*10^17, no test walks it", "anchors": ["src/prime_impl.rs: PrimeWheelSieveLvl0, PrimeWheelSieveLvl1 (PrimeWheelSieve), produce_next_delta, start_geq_than"]}
{"id": "C41", "title": "Hex decoding and encoding are inverse and reject bad input", "statement": "bytes_from_hexstr accepts exactly strings of 2N hex digits and returns the bytes they denote; bytes_to_hexstr produces the lowercase digits, and decoding gives back the bytes; the big-endian integer decoder accepts exactly nonempty-or-empty digit strings up to 2N digits (odd lengths included) and returns the value left padded.", "quantifier": "all strings, all byte arrays, all N", "why_tests_cant": "all strings", "anchors": ["src/hexstr.rs: bytes_from_hexstr, be_bytes_from_hexstr, bytes_to_hexstr"]}
{"id": "C42", "title": "Conversion to native integers", "statement": "try_into_u8/u16/u32/u64 returns the represented integer if it fits the type and an error otherwise; set_to_u8/u16/u32/u64 stores the given integer.", "quantifier": "all buffers and lengths, all native values", "why_tests_cant": "truncation and zero-extension over all lengths", "anchors": ["src/limbs_buffer.rs: MpUInt::try_into_native, MpMutUInt::set_to_native"]}
{"id": "C43", "title": "Constant time: control flow and memory access do not depend on secret values", "statement": "For the routines documented to run in constant time, two runs on operands with the same encodings and lengths perform the same sequence of branches, limb loads/stores (same indices) and no variable-time division, whatever the operand values.", "quantifier": "all pairs of operand values with equal shapes", "why_tests_cant": "a relational property over pairs of executions; timing tests are statistical", "anchors": ["src/cmp_impl.rs", "src/add_impl.rs", "src/shift_impl.rs", "src/mul_impl.rs", "src/limbs_buffer.rs"]}
{"id": "C44", "title": "No panic within the documented preconditions, debug and release agree", "statement": "Within the documented preconditions none of the modelled routines panics (no out-of-bounds index, no arithmetic overflow in a debug build, no failing debug assertion) and a debug and a release build return the same result.", "quantifier": "all inputs meeting the documented preconditions, both build modes, both limb widths", "why_tests_cant": "panics hide at specific lengths and values", "anchors": ["src/add_impl.rs", "src/cmp_impl.rs", "src/shift_impl.rs", "src/mul_impl.rs", "src/div_impl.rs", "src/montgomery_impl.rs", "src/limbs_buffer.rs", "src/limb/mod.rs"]}
{"id": "C45", "title": "Encoding transparency", "statement": "Running an operation on operands re-encoded in another supported encoding (big-endian bytes, little-endian bytes, native limbs) of the same values yields the same numerical result.", "quantifier": "all operand values, all pairs of encodings", "why_tests_cant": "the number of encoding combinations times lengths is unbounded", "anchors": ["src/limbs_buffer.rs", "src/add_impl.rs", "src/mul_impl.rs"]}
{"id": "C46", "title": "Byte views of limb slices", "statement": "Viewing a slice of limbs as bytes shows the machine encoding of the same integer (little-endian on little-endian machines; on big-endian machines the big-endian encoding if the limbs are in reverse order). Bytes written through the mutable view are what the limbs hold afterwards, and an unmodified view leaves the limbs alone. The number of limbs to allocate for a length in bytes is the least sufficient one, for every length.", "quantifier": "all limb slices, all byte strings of the view's length, both byte orders, both limb widths", "why_tests_cant": "tests run on one byte order and a few lengths", "anchors": ["src/limbs_buffer.rs: limb_slice_as_bytes, limb_slice_as_bytes_mut, nlimbs_for_len"]}
{"id": "C47", "title": "Operations undo each other", "statement": "Subtracting what was added (or adding what was subtracted) gives back the very same buffer even if the first step wrapped around, and carry and borrow agree; so do negating twice, shifting left within the leading zeros and right again, and adding and subtracting modulo n. A product divided by a factor gives the other factor and no remainder; quotient times divisor plus remainder is the dividend.", "quantifier": "all buffers in all encodings, all lengths meeting the documented requirements, all values", "why_tests_cant": "tests cover some values; the identities hold for all only if every carry, mask and length computation is right in both steps", "anchors": ["src/add_impl.rs: ct_add_mp_mp, ct_sub_mp_mp, ct_negate_mp, ct_add_mod_mp_mp, ct_sub_mod_mp_mp", "src/shift_impl.rs: ct_lshift_mp, ct_rshift_mp", "src/mul_impl.rs: ct_mul_trunc_mp_mp", "src/div_impl.rs: CtMpDivisor::new, ct_div_mp_mp"]}
{"id": "C48", "title": "Products through Montgomery form", "statement": "Converting two numbers to Montgomery form, multiplying them there and reducing the result gives the product modulo n.", "quantifier": "all odd moduli, all numbers, all encodings of the four buffers", "why_tests_cant": "a wrong radix or a lost carry in one of the steps shows for few operands only", "anchors": ["src/montgomery_impl.rs: ct_to_montgomery_form_direct_mp, ct_montgomery_neg_n0_inv_mod_l_mp, ct_montgomery_mul_mod_mp_mp, ct_montgomery_redc_mp"]}
{"id": "C49", "title": "Key agreement", "statement": "Two parties raising a common generator to their secrets, exchanging the results and raising what they received end up with the same number, whatever encodings each of them uses.", "quantifier": "all odd moduli, all generators below them, all secrets and announced bit lengths, all encodings", "why_tests_cant": "agreement for every pair of secrets cannot be sampled; a rare wrong exponentiation breaks a protocol run", "anchors": ["src/montgomery_impl.rs: ct_exp_mod_odd_mp_mp"]}
{"id": "C50", "title": "RSA round trip", "statement": "With n the product of two distinct primes and exponents inverse to each other modulo both primes less one, raising any message below n to one exponent and the result to the other gives the message back, including messages sharing a factor with n.", "quantifier": "all pairs of distinct primes, exponents, messages and encodings", "why_tests_cant": "messages for which it fails, if any, are too rare to be sampled; rests on Fermat's little theorem", "anchors": ["src/montgomery_impl.rs: ct_exp_mod_odd_mp_mp"]}
{"id": "C51", "title": "Inverses agree", "statement": "Inverting modulo an odd number twice gives the number back, reduced. Modulo a prime, inversion and exponentiation by the prime less two give the same number.", "quantifier": "all odd moduli, all numbers coprime to them, all encodings", "why_tests_cant": "relates two algorithms with nothing in common for all operands", "anchors": ["src/euclid_impl.rs: ct_inv_mod_odd_mp_mp", "src/montgomery_impl.rs: ct_exp_mod_odd_mp_mp"]}
{"id": "C52", "title": "Greatest common divisor times least common multiple", "statement": "The product of the greatest common divisor and the least common multiple of two numbers is the product of the numbers, zeros included.", "quantifier": "all pairs of numbers, announced lengths and encodings", "why_tests_cant": "relates several algorithms for all operands", "anchors": ["src/euclid_impl.rs: ct_gcd_mp_mp", "src/lcm_impl.rs: ct_lcm_mp_mp", "src/mul_impl.rs: ct_mul_trunc_mp_mp"]}
{"id": "C53", "title": "Searching for primes passes over none", "statement": "A search that takes candidates from the sieve, screens them for small factors and tests the rest with Miller-Rabin rounds called the way the unit tests do (reducing the base, converting to Montgomery form) returns the first candidate which has no small factor and is a strong probable prime to all of the bases; no prime between the lower bound and the candidate returned is passed over, and a search given up after k candidates implies that the next prime is at least k away.", "quantifier": "all lower bounds, all lists of bases, any number of candidates, all buffer encodings, both limb widths, all builds", "why_tests_cant": "a skipped or falsely rejected prime goes unnoticed, as the search just returns a later one", "anchors": ["src/prime_impl.rs: PrimeWheelSieveLvl1, ct_composite_test_small_prime_gcd_mp, ct_prime_test_miller_rabin_mp", "src/montgomery_impl.rs: ct_montgomery_radix2_mod_n_mp, ct_to_montgomery_form_mp, ct_montgomery_redc_mp", "src/add_impl.rs: ct_add_mp_l"]}
{"id": "C54", "title": "RSA keys made with the library work", "statement": "For distinct primes p and q and a public exponent coprime to lcm(p-1, q-1), multiplying the primes, decrementing them, taking the least common multiple and inverting the exponent modulo it gives the modulus p q and a private exponent such that every message below the modulus raised to one exponent and then to the other comes back.", "quantifier": "all pairs of primes, all public exponents, all messages, all buffer encodings and lengths meeting the operations' requirements", "why_tests_cant": "tests exercise a few keys; the composition depends on every operation being right for all primes and exponents", "anchors": ["src/mul_impl.rs: ct_mul_trunc_mp_mp", "src/lcm_impl.rs: ct_lcm_mp_mp", "src/invmod_impl.rs: ct_inv_mod_mp_mp", "src/montgomery_impl.rs: ct_exp_mod_odd_mp_mp"]}
{"id": "C55", "title": "RSA private operations by the Chinese remainder theorem give the power modulo the product", "statement": "Reducing a ciphertext modulo each of two primes, raising it to the two private exponents, subtracting the results modulo p, multiplying by the inverse of q modulo p, multiplying by q and adding gives the ciphertext raised to the private exponent modulo p q; in particular every message encrypted with the matching public exponent comes back.", "quantifier": "all pairs of primes, exponents, ciphertexts (in one or two parts) and messages, all buffer encodings and lengths meeting the operations' requirements", "why_tests_cant": "no test composes these operations; correctness for all ciphertexts needs Fermat's theorem and the exactness of seven different functions", "anchors": ["src/div_impl.rs: ct_mod_mp_mp", "src/montgomery_impl.rs: ct_exp_mod_odd_mp_mp, ct_montgomery_mul_mod_mp_mp, ct_to_montgomery_form_direct_mp", "src/add_impl.rs: ct_sub_mod_mp_mp, ct_add_mp_mp", "src/mul_impl.rs: ct_mul_trunc_mp_mp"]}
{"id": "C56", "title": "Signatures made with the library are accepted by verification made with the library", "statement": "The digital signature algorithm composed from the library's modular power, inverse, product, sum, reduction and comparison computes r = (g^k mod p) mod q and s = k^-1 (z + x r) mod q; verification answers whether ((g^(z/s) y^(r/s)) mod p) mod q equals r, and accepts every signature with non-zero s made with the matching private key, whatever buffers the two sides use.", "quantifier": "all groups, keys, secrets, hashes and all buffer encodings and lengths meeting the operations' requirements", "why_tests_cant": "no test composes these operations; a wrong result for a rare modulus or operand goes unnoticed by examples", "anchors": ["src/montgomery_impl.rs: ct_exp_mod_odd_mp_mp, ct_montgomery_mul_mod_mp_mp", "src/euclid_impl.rs: ct_inv_mod_odd_mp_mp", "src/add_impl.rs: ct_add_mod_mp_mp", "src/div_impl.rs: ct_mod_mp_mp", "src/cmp_impl.rs: ct_eq_mp_mp"]}
{"id": "C57", "title": "The inline assembly computes the limb primitives whatever registers the compiler gives it", "statement": "With the assembly feature enabled, the assembly blocks for zero tests, addition, subtraction, multiplication and division leave the right results in their output registers and change no other register, for every assignment of registers their operand constraints allow and whatever the registers and flags hold before; the division raises the processor's divide error exactly if the quotient does not fit a limb.", "quantifier": "all operand values, all admissible register assignments, all initial contents of registers and flags", "why_tests_cant": "a test runs the one register assignment the compiler chose and whatever the registers happened to hold", "anchors": ["src/limb/x86_64_math.rs: ct_is_nonzero_l, ct_is_zero_l, ct_add_l_l, ct_sub_l_l, ct_mul_l_l, NonCtLDivisor::do_div"]}
{"id": "C58", "title": "Limb accesses with any index and value", "statement": "Loading or storing a limb of a buffer with an arbitrary index does what the index says or panics; storing a value larger than the limb's bytes in the buffer can hold panics or reduces it. Stated exactly, the limb an access gets at is the caller's in debug builds and on native limb buffers, but in release builds the offset into a byte buffer wraps around, so that a far out of range index silently reads or overwrites an existing limb; just past an aligned end, byte buffers may read as zero and swallow what is stored.", "quantifier": "all buffers, all indices up to the largest usize, all limb values, all builds", "why_tests_cant": "indices near the overflow of usize and the combinations of encoding, alignment, index, value and build mode are too many to enumerate, and what happens past the end is not an error a test would look for", "anchors": ["src/limbs_buffer.rs: MpUIntCommon::load_l, load_l_full, MpMutUInt::store_l, store_l_full", "src/limbs_buffer.rs: be_mp_load_l, le_mp_load_l, be_mp_store_l, le_mp_store_l and their _full variants"]}
{"id": "C59", "title": "Shrinking and splitting buffers", "statement": "Shrinking a buffer to n bytes gives a view of its low bytes (whole limbs on native buffers) that denotes the same number if that fits n bytes; otherwise debug builds panic and release builds cut the number off. Writing to the view changes the low bytes of the buffer only. Splitting a buffer in two at n bytes gives parts that denote the high and the low part of the number, or panics if there are fewer bytes; native buffers split at whole limbs only.", "quantifier": "all buffers, encodings, lengths and numbers, all builds", "why_tests_cant": "the encodings place the low bytes at opposite ends and round lengths differently, so that a mistake shows only for particular combinations of encoding, length and value", "anchors": ["src/limbs_buffer.rs: MpUIntSlice::shrink_to, MpMutUIntSlice::shrink_to, _shrink_to, MpUIntSliceCommonPriv::take"]}
{"id": "C60", "title": "Buffer lengths", "statement": "A buffer's number of limbs is the least that holds its bytes, it is empty exactly if it has no bytes, and its number fits them. Its length is compatible with n bytes exactly if it has no more bytes or, on native buffers, exceeds n by less than a limb and the number fits n bytes. The number of backing elements for n bytes is the least that suffices, and the mask of the highest limb covers exactly the bits stored there.", "quantifier": "all buffers, encodings, lengths and numbers, all builds and limb widths", "why_tests_cant": "every operation decides by these whether operands fit; mistakes show only for lengths just off a multiple of the limb size", "anchors": ["src/limbs_buffer.rs: ct_mp_nlimbs, ct_mp_limbs_align_len, MpUIntCommon::len, nlimbs, is_empty, len_is_compatible_with, MpUIntCommonPriv::partial_high_mask, MpUIntSliceCommonPriv::n_backing_elements_for_len"]}
