{
 "claims": [
  {
   "property": "C01",
   "status": "proved",
   "theorems": [
    "C01_load",
    "C01_store",
    "C01_store_digits"
   ],
   "note": "load_l/load_l_full/store_l/store_l_full for all three encodings, all lengths and indices, both limb widths."
  },
  {
   "property": "C02",
   "status": "proved",
   "theorems": [
    "C02_clear_bytes",
    "C02_clear_bytes_below_past_end_refuted",
    "C02_clear_bytes_below_past_end_bytes",
    "C02_clear_bytes_below_past_end_limbs",
    "C02_clear_bytes_below_huge"
   ],
   "note": "Holds for every position up to the buffer length (and clear_bytes_above beyond). What clear_bytes_below does past the end is stated exactly, for byte buffers (clears everything) and for limb buffers (leaves bytes of the top limb standing unless the position is a multiple of the limb size, panics on an empty buffer and on overflow): *_refuted, *_past_end_*, *_huge."
  },
  {
   "property": "C03",
   "status": "proved",
   "theorems": [
    "C03_clear_bits"
   ],
   "note": "All four routines, every bit position representable in usize."
  },
  {
   "property": "C04",
   "status": "proved",
   "theorems": [
    "C04_copy_from",
    "C04_copy_from_large"
   ],
   "note": "Any pair of encodings. If the value does not fit the destination, debug builds panic and release builds drop the excess: C04_copy_from_large."
  },
  {
   "property": "C05",
   "status": "partial",
   "theorems": [
    "C05_copy_from_cond_partial",
    "C05_copy_from_cond_refuted",
    "C05_copy_from_cond_longer",
    "C05_copy_from_cond_large"
   ],
   "note": "The code is wrong when the condition is true and the destination is longer than the source (C05_copy_from_cond_refuted gives a witness); proved in all other cases. What it leaves in that case is stated exactly for all inputs (C05_copy_from_cond_longer). If the value does not fit, debug builds panic even if the condition is false: C05_copy_from_cond_large."
  },
  {
   "property": "C06",
   "status": "proved",
   "theorems": [
    "C06_test_bit",
    "C06_set_bit_to",
    "C06_set_bit_to_past_end"
   ],
   "note": "test_bit also beyond the end of the buffer; set_bit_to there keeps the buffer or panics, exactly when: C06_set_bit_to_past_end."
  },
  {
   "property": "C07",
   "status": "proved",
   "theorems": [
    "C07_last_set_bit",
    "C07_first_set_bit",
    "C07_last_set_limb_byte"
   ],
   "note": "Bit width, lowest set bit, minimal limb and byte counts."
  },
  {
   "property": "C08",
   "status": "proved",
   "theorems": [
    "C08_swap_cond"
   ],
   "note": ""
  },
  {
   "property": "C09",
   "status": "proved",
   "theorems": [
    "C09_composite",
    "C09_composite_any"
   ],
   "note": "Any number of segments of one encoding; includes the write-back into the original segments. C09_composite_any: every index and every value, with the panics and cuts of accesses that do not fit."
  },
  {
   "property": "C10",
   "status": "proved",
   "theorems": [
    "C10_is_zero",
    "C10_comparisons",
    "C10_choice",
    "C10_choice_usize",
    "C10_lsb_mask",
    "C10_negate",
    "C10_arithmetic_rshift"
   ],
   "note": "Comparisons, choices, masks, negation, arithmetic shift."
  },
  {
   "property": "C11",
   "status": "proved",
   "theorems": [
    "C11_add",
    "C11_sub",
    "C11_mul",
    "C11_mul_add",
    "C11_mul_sub",
    "C11_backends_agree"
   ],
   "note": "Exactness and equality of the portable and the assembly backend (inline asm modelled by its documented instruction semantics)."
  },
  {
   "property": "C12",
   "status": "proved",
   "theorems": [
    "C12_ct_division",
    "C12_nonct_division",
    "C12_zero_divisor"
   ],
   "note": "Constant-time and non-constant-time double limb division, zero divisor rejected."
  },
  {
   "property": "C13",
   "status": "proved",
   "theorems": [
    "C13_inv_mod_l"
   ],
   "note": ""
  },
  {
   "property": "C14",
   "status": "proved",
   "theorems": [
    "C14_last_set_bit",
    "C14_last_set_byte",
    "C14_first_set_bit"
   ],
   "note": ""
  },
  {
   "property": "C15",
   "status": "proved",
   "theorems": [
    "C15_usize_comparisons"
   ],
   "note": ""
  },
  {
   "property": "C16",
   "status": "proved",
   "theorems": [
    "C16_compare",
    "C16_compare_small"
   ],
   "note": "All mp comparisons, any lengths and encodings."
  },
  {
   "property": "C17",
   "status": "proved",
   "theorems": [
    "C17_add",
    "C17_add_cond",
    "C17_add_limb",
    "C17_add_any"
   ],
   "note": "The documented precondition (op1 fits op0's bytes and limbs) gives sum and carry; C17_add_any says what every other operand does (value modulo op0's size; panics on more limbs, except for one dropped limb in release builds). Any limb: C18_limb_any."
  },
  {
   "property": "C18",
   "status": "proved",
   "theorems": [
    "C18_sub",
    "C18_sub_cond",
    "C18_sub_limb",
    "C18_sub_any",
    "C18_limb_any",
    "C18_negate"
   ],
   "note": "Under the documented precondition difference and borrow; C18_sub_any and C18_limb_any say what every other operand does."
  },
  {
   "property": "C19",
   "status": "partial",
   "theorems": [
    "C19_add_mod_partial",
    "C19_sub_mod_partial",
    "C19_negate_mod",
    "C19_add_mod_longer",
    "C19_sub_mod_longer",
    "C19_longer_op0_refuted"
   ],
   "note": "ct_negate_mod_mp unconditionally; ct_add_mod/ct_sub_mod under the exact guard that op0 has as many limbs as n or no carry/borrow leaves n's limbs. Outside the guard the code is wrong: C19_longer_op0_refuted. Outside of the guard the result is always wrong, and its exact value is stated: C19_add_mod_longer, C19_sub_mod_longer."
  },
  {
   "property": "C20",
   "status": "proved",
   "theorems": [
    "C20_lshift"
   ],
   "note": "Every distance representable in usize, including beyond the width; stored value and returned limb."
  },
  {
   "property": "C21",
   "status": "proved",
   "theorems": [
    "C21_rshift"
   ],
   "note": "Every distance representable in usize; stored value and returned limb."
  },
  {
   "property": "C22",
   "status": "proved",
   "theorems": [
    "C22_mul",
    "C22_mul_full",
    "C22_mul_cond",
    "C22_mul_any"
   ],
   "note": "Truncated and full products, any operand lengths (empty factor included); the conditional form. C22_mul_any: all first operands (also with bytes set above op0_in_len, which are cleared even if the condition is false) and all op0_in_len (beyond the end: panics in debug builds)."
  },
  {
   "property": "C23",
   "status": "partial",
   "theorems": [
    "C23_square_partial",
    "C23_square_fine_partial",
    "C23_square_debug_panics",
    "C23_square_release_exact",
    "C23_square_any",
    "C23_square_limb",
    "C23_square_debug_refuted",
    "C23_square_release_refuted"
   ],
   "note": "The code violates the property: a carry is lost (release) or a debug_assert fires when the high half of the product of two limbs is just below half the limb base (C23_*_refuted, witnesses for every configuration). Proved for every operand without such a pair of limbs, in particular for all single-limb operands. More precisely, proved for all operands meeting square_fine (SpecMul.v), which debug builds meet exactly if they do not panic (C23_square_debug_panics). Release builds are right exactly if square_right (C23_square_release_exact), so that every case is settled; that the result is wrong otherwise is proved for buffers with fewer limbs than the bytes of the most significant one can count (at least 255 limbs). C23_square_any: announced lengths beyond the end of the buffer."
  },
  {
   "property": "C24",
   "status": "proved",
   "theorems": [
    "C24_mul_limb",
    "C24_mul_limb_any"
   ],
   "note": "All operands and lengths; announced lengths beyond the end of the buffer: C24_mul_limb_any."
  },
  {
   "property": "C25",
   "status": "partial",
   "theorems": [
    "C25_new",
    "C25_new_sound",
    "C25_new_zero_refuted",
    "C25_new_zero",
    "C25_div",
    "C25_div_short",
    "C25_div_overflow",
    "C25_div_debug_refuted",
    "C25_div_release_refuted",
    "C25_div_middle",
    "C25_mod"
   ],
   "note": "Constructor, division and modulo for every dividend and divisor (with decrement). Proved whenever the quotient fits its buffer, and an error is proved whenever it does not fit the buffer's limbs or the length check fails. In between (buffer length not a multiple of the limb size) the code violates the property (C25_div_*_refuted): it always panics with debug assertions, and truncates the quotient without them (C25_div_middle), so that every case is settled. A zero divisor without decrement always panics (C25_new_zero)."
  },
  {
   "property": "C26",
   "status": "partial",
   "theorems": [
    "C26_div",
    "C26_div_short",
    "C26_div_remainder_short",
    "C26_div_overflow",
    "C26_mod",
    "C26_div_debug_refuted",
    "C26_div_release_refuted",
    "C26_div_middle",
    "C26_huge_exponent_refuted"
   ],
   "note": "Quotient and remainder of 2^k for every exponent, divisor and buffer length; short buffers refused. A quotient fitting the limbs but not the bytes of its buffer is not reported by the code: C26_div_debug_refuted, C26_div_release_refuted. What happens instead is stated exactly, for all such quotients, in C26_div_middle. The exponents for which the length computation overflows make the code panic: C26_huge_exponent_refuted is on all of them, so pow2_exp_ok is exact."
  },
  {
   "property": "C27",
   "status": "partial",
   "theorems": [
    "C27_div",
    "C27_div_short",
    "C27_div_remainder_short",
    "C27_div_overflow",
    "C27_mod",
    "C27_div_debug_refuted",
    "C27_div_release_refuted",
    "C27_div_middle",
    "C27_huge_shift_debug",
    "C27_huge_shift_release",
    "C27_huge_shift_refuted"
   ],
   "note": "Quotient and remainder for every shift, divisor and buffer length, provided the bytes of u above u_in_len are zero; short buffers refused. A quotient fitting the limbs but not the bytes of its buffer is not reported by the code: C27_div_debug_refuted, C27_div_release_refuted. What happens instead is stated exactly, for all such quotients, in C27_div_middle. Shift lengths overflowing usize together with the dividend length: C27_huge_shift_debug (panic), C27_huge_shift_release and C27_huge_shift_refuted (success with a remainder of zero). Left open without overflow checks: overflowing shift lengths whose wrapped total is at least the length of the divisor, and totals within LB of 2^UW."
  },
  {
   "property": "C28",
   "status": "partial",
   "theorems": [
    "C28_div_partial",
    "C28_div_short",
    "C28_div_limbs_refuted",
    "C28_div_limbs",
    "C28_div_empty",
    "C28_div_empty_refuted",
    "C28_mod"
   ],
   "note": "Modulo unconditionally; quotient if its buffer has as many limbs as the dividend. With fewer limbs the code panics (C28_div_limbs_refuted; exactly when: C28_div_limbs), with an empty dividend the quotient buffer is never cleared (C28_div_empty)."
  },
  {
   "property": "C29",
   "status": "partial",
   "theorems": [
    "C29_neg_inv",
    "C29_reduced_unique",
    "C29_redc_partial",
    "C29_redc_errors",
    "C29_redc_single_limb_refuted",
    "C29_redc_single_limb"
   ],
   "note": "All odd moduli of at least two limbs, all lengths and encodings, plus all error cases. Single limb moduli make the code panic (C29_redc_single_limb_refuted) but for some release build cases; C29_redc_single_limb says exactly which."
  },
  {
   "property": "C30",
   "status": "partial",
   "theorems": [
    "C30_mul_partial",
    "C30_mul_errors",
    "C30_mul_exact",
    "C30_mul_value",
    "C30_mul_empty",
    "C30_mul_carry_refuted",
    "C30_mul_near_radix_refuted",
    "C30_mul_top_ones_refuted",
    "C30_mul_modp_refuted",
    "C30_mul_curves_refuted",
    "C30_carry_ok_curves",
    "C30_mul_unaligned_modulus_debug_refuted",
    "C30_mul_unaligned_modulus_release_refuted",
    "C30_mul_short_result_debug_refuted",
    "C30_mul_short_result_release_refuted",
    "C30_mul_empty_refuted"
   ],
   "note": "Proved when no carry can get lost (B*op1 + n <= B*R) and the result buffer has room for the unreduced product. The code is wrong otherwise: five *_refuted theorems, among them a silently wrong residue with equally sized native buffers. All cases are settled exactly by C30_mul_exact (right, wrong or panic) and C30_mul_empty. C30_mul_near_radix_refuted: the guard on the modulus is all but necessary, wrong factors exist for every modulus exceeding it by a small margin; C30_mul_curves_refuted: among these are the primes of NIST P-384 and secp256k1, and of P-256 with 32 bit limbs; C30_mul_top_ones_refuted and C30_mul_modp_refuted: and those of the Diffie-Hellman groups of RFC 2409 and RFC 3526, with limbs of either width. C30_mul_value: the exact value returned, for every odd modulus, lost carries included."
  },
  {
   "property": "C31",
   "status": "partial",
   "theorems": [
    "C31_direct",
    "C31_radix2",
    "C31_to_form_partial",
    "C31_to_form_exact",
    "C31_to_form_value",
    "C31_to_form_errors",
    "C31_round_trip_partial"
   ],
   "note": "Conversion by division and the squared radix are fully proved; conversion by multiplication under the guard of C30 and, for all odd moduli, right exactly if no carry is lost (C31_to_form_exact); the round trip under the guards of C29/C30. C31_to_form_value: the exact value conversion by multiplication returns in all cases."
  },
  {
   "property": "C32",
   "status": "partial",
   "theorems": [
    "C32_montgomery_exp_partial",
    "C32_exp_partial",
    "C32_exp_any",
    "C32_montgomery_exp_any",
    "C32_montgomery_exp_value",
    "C32_exp_value",
    "C32_exp_minus_one_refuted",
    "C32_fine",
    "C32_exp_errors",
    "C32_exp_carry_refuted",
    "C32_exp_single_limb",
    "C32_exp_single_limb_refuted"
   ],
   "note": "Proved under the guards of C29/C30 plus all error cases. For all other odd moduli of at least two limbs it does not panic, gives a residue, and the right one if none of the products it depends on loses a carry (C32_exp_any, C32_montgomery_exp_any). The code is wrong otherwise: (n-1)^2 mod n yields 0 for n = B^2-3, and every single limb modulus panics (C32_exp_single_limb, for all of them). C32_exp_value and C32_montgomery_exp_value: the exact value returned for all odd moduli of at least two limbs, lost carries included; C32_exp_minus_one_refuted: (n-1)^2 mod n is not computed as 1 for the primes of NIST P-192 and P-384, secp256k1 and Curve448, the orders of P-384 and secp256k1 and the 1024 bit Diffie-Hellman group."
  },
  {
   "property": "C33",
   "status": "proved",
   "theorems": [
    "C33_gcd_odd",
    "C33_gcd_odd_errors",
    "C33_gcd",
    "C33_gcd_both_zero",
    "C33_gcd_errors"
   ],
   "note": "Division-step algorithm in full, including the proof that the number of batches suffices (Bernstein-Yang bound proved in GcdBound.v). Operand lengths must allow counting the steps in usize. gcd(0,0) gives 1, as documented in the source; stated separately."
  },
  {
   "property": "C34",
   "status": "partial",
   "theorems": [
    "C34_inv_odd_partial",
    "C34_inv_odd_any_partial",
    "C34_late_swaps_fit",
    "C34_spare_limb_late",
    "C34_batches_end",
    "C34_inv_odd_exact",
    "C34_inv_odd_not_coprime",
    "C34_inv_odd_release",
    "C34_inv_odd_errors",
    "C34_inv_odd_refuted",
    "C34_inv_odd_rejects_refuted",
    "C34_inv_odd_unreduced_refuted",
    "C34_inv_curves_refuted"
   ],
   "note": "Proved for moduli leaving the most significant limb of their buffer unused (any odd modulus in a long enough buffer), and for every odd modulus under the condition that none of the residues computed by the batches of division steps leaves the representable range (residues_fit in SpecSteps.v, a condition on numbers only; implied by late swaps or a spare limb). Non-coprime operands and the error cases are proved for all odd moduli. C34_inv_odd_exact gives the outcome for every odd modulus and coprime operand as a function of the numbers alone (batches, residues in SpecSteps.v). The property itself is false: C34_inv_odd_refuted and C34_inv_curves_refuted (primes of P-256, secp256k1, Curve25519, P-384, in all encodings and builds) exhibit success with a number which isn't the inverse, C34_inv_odd_rejects_refuted the rejection of, or a panic on, an invertible operand, C34_inv_odd_unreduced_refuted a result equal to the modulus (sign bits ORed at the wrong position in finish_in_twos_complement, lost carry)."
  },
  {
   "property": "C35",
   "status": "partial",
   "theorems": [
    "C35_inv_pow2_partial",
    "C35_inv_pow2_debug_exact",
    "C35_inv_pow2_small",
    "C35_inv_pow2_zero",
    "C35_inv_pow2_debug_refuted",
    "C35_inv_pow2_release_refuted"
   ],
   "note": "Proved for all odd operands when the bound on the exponent is at most two limbs, and for larger ones provided none of the inverses modulo 2, 4, 16, 256, ... it is lifted from hits the squaring defect of C23 (which debug builds panic on exactly then: C35_inv_pow2_debug_exact); a panic (debug) and a wrong result (release) are exhibited otherwise. The function is private and has no error result: an even operand is only passed along with exponent 0, which gives zero."
  },
  {
   "property": "C36",
   "status": "partial",
   "theorems": [
    "C36_inv_any_partial",
    "C36_inv_any_fits_partial",
    "C36_inv_any_two_limbs_partial",
    "C36_inv_any_two_limbs_fits_partial",
    "C36_inv_any_not_coprime_partial",
    "C36_inv_any_one_partial",
    "C36_inv_any_errors",
    "C36_inv_any_exact",
    "C36_inv_any_curves_refuted",
    "C36_inv_any_refuted",
    "C36_inv_any_debug_refuted"
   ],
   "note": "Proved for all moduli greater than one whose odd part leaves the top limb unused or whose residues fit (guards of C34), the operand and the odd part being liftable (guard of C35; automatic up to two limbs); non-coprime operands, modulus one, zero modulus, both operands even and all length errors are covered too. C36_inv_any_exact gives the outcome without any condition on the odd part, and when exactly it is right. C36_inv_any_refuted shows a wrong inverse without the spare limb, C36_inv_any_curves_refuted wrong inverses for the primes of widely used curves, C36_inv_any_debug_refuted a panic."
  },
  {
   "property": "C37",
   "status": "partial",
   "theorems": [
    "C37_lcm_partial",
    "C37_lcm_clamp",
    "C37_lcm_empty",
    "C37_lcm_errors",
    "C37_lcm_exact",
    "C37_lcm_first_short",
    "C37_lcm_first_short_refuted",
    "C37_lcm_excess_refuted",
    "C37_lcm_native_sum_refuted",
    "C37_lcm_native_result_refuted"
   ],
   "note": "Proved for operands of equal length and any announced lengths, with the extra room a native second operand needs. Refuted otherwise: lengths differing within alignment excess panic in debug builds although the checks admit them; a native second operand with announced lengths not adding up to whole limbs panics in debug builds; with a result of exactly the sum of the lengths and announced lengths of half a limb, all builds panic; with a first operand shorter than the length announced for the second, release builds return a wrong result (C37_lcm_first_short_refuted). Together C37_lcm_exact and C37_lcm_first_short say for all builds, encodings and lengths the checks admit whether the result is right, wrong or the function panics."
  },
  {
   "property": "C38",
   "status": "proved",
   "theorems": [
    "C38_screen",
    "C38_primes_pass",
    "C38_empty",
    "C38_errors",
    "C38_products"
   ],
   "note": "For every candidate, encoding and configuration: reported composite iff some prime up to the limit for the length (29 ... 1471) divides it; primes beyond the limit always pass; the nine hexadecimal constants are shown to have exactly the odd primes up to the stated limits as prime factors. gcd_len_ok excludes candidates of more than ten million bytes on 32 bit platforms only."
  },
  {
   "property": "C39",
   "status": "partial",
   "theorems": [
    "C39_miller_rabin_partial",
    "C39_primes_pass_partial",
    "C39_miller_rabin_any",
    "C39_primes_pass_any",
    "C39_miller_rabin_value",
    "C39_secp256k1_refuted",
    "C39_errors",
    "C39_carry_refuted",
    "C39_unaligned_refuted",
    "C39_short_radix_refuted",
    "C39_empty_base_refuted",
    "C39_one_debug_refuted"
   ],
   "note": "Reported prime iff the candidate is a strong probable prime to the base, and every odd prime passes (Fermat and the square roots of one proved from scratch), for candidates not within a factor of 1 + 1/B of the radix; for all other odd candidates (*_any) no panic, and the right answer unless one of the products of the exponentiation loses a carry (C30). The guards are needed: 2^64-59 is reported composite with 32 bit limbs and base -1, unaligned candidates near the maximum panic, as do short radixes, an empty base and (debug) the candidate 1: *_refuted. C39_miller_rabin_value: the exact answer for all odd candidates of at least two limbs; C39_secp256k1_refuted: the secp256k1 prime is reported composite for the base -2 with 64 bit limbs."
  },
  {
   "property": "C40",
   "status": "proved",
   "theorems": [
    "C40_enumerates",
    "C40_no_prime_skipped",
    "C40_candidates",
    "C40_wheel_primes",
    "C40_unsieved_coprime",
    "C40_search",
    "C40_search_const"
   ],
   "note": "For lower bounds of any length and encoding and any number of calls, in all builds, with no hypothesis other than well-formedness of the buffer."
  },
  {
   "property": "C41",
   "status": "proved",
   "theorems": [
    "C41_be_decode",
    "C41_decode",
    "C41_decode_bytes",
    "C41_encode",
    "C41_decode_encode",
    "C41_encode_decode",
    "C41_decode_cnst",
    "C41_format"
   ],
   "note": "Strings are byte lists. Also covers LowerHex formatting of integers. Allocation failure of String and formatter errors are not modelled."
  },
  {
   "property": "C42",
   "status": "partial",
   "theorems": [
    "C42_native_partial",
    "C42_try_into_short_refuted",
    "C42_try_into",
    "C42_set_to_short"
   ],
   "note": "Proved for buffers at least as long as the native type. On shorter buffers try_into_u* may panic although the value fits (C42_try_into_short_refuted); C42_try_into says exactly for which it works and for which it panics. Likewise for storing: C42_set_to_short."
  },
  {
   "property": "C43",
   "status": "partial",
   "theorems": [
    "C43_limb",
    "C43_buffer",
    "C43_compare",
    "C43_add_sub",
    "C43_mod_arith",
    "C43_mul_shift",
    "C43_divide",
    "C43_divide_limb",
    "C43_divisor_new",
    "C43_montgomery",
    "C43_exp",
    "C43_shift_operations",
    "C43_shift_address_refuted",
    "C43_shift_bytes_refuted",
    "C43_divide_quotient_refuted",
    "C43_gcd",
    "C43_gcd_operations",
    "C43_inverse",
    "C43_inverse_operations",
    "C43_prime",
    "C43_gcd_address_refuted",
    "C43_gcd_bytes_refuted",
    "C43_inverse_exists_refuted",
    "C43_search",
    "C43_sieve_start_partial",
    "C43_sieve_start_refuted",
    "C43_sieve_next_refuted",
    "C43_lcm",
    "C43_lcm_operations",
    "C43_lcm_bytes_refuted"
   ],
   "note": "Proved for builds without debug assertions, over traces of branches, limb indices and hardware division operands: limb arithmetic, buffer primitives, comparisons, additive and modular arithmetic, multiplication, shifts by public distance, division (divisor byte length public), Montgomery arithmetic and exponentiation (secret base, exponent and modulus). Shifts by a secret distance keep the operation sequence on native buffers (C43_shift_operations) but not the addresses, nor, on byte buffers, the branches (C43_shift_*_refuted); a quotient buffer without room for every possible quotient makes its overflow observable (C43_divide_quotient_refuted). Greatest common divisors, inversions, the small prime screen and the Miller-Rabin test: equal traces for successful runs, where the power of two dividing the operands of a gcd or the modulus of an inversion is public (C43_gcd, C43_inverse, C43_prime); on native buffers it shows in addresses only (C43_gcd_operations, C43_inverse_operations), the refuted theorems show that this cannot be improved. Least common multiple: equal traces where bit length and power of two of the gcd are public (C43_lcm), on native buffers equal up to addresses without (C43_lcm_operations, C43_lcm_bytes_refuted). Sieve: the table search is constant time (C43_search), the start is up to operands of divisions (C43_sieve_start_partial, C43_sieve_start_refuted); the iteration count to the next candidate is not (C43_sieve_next_refuted). Not covered: hexadecimal conversion, which is not documented to be constant time."
  },
  {
   "property": "C44",
   "status": "partial",
   "theorems": [
    "C44_buffer",
    "C44_compare",
    "C44_add_sub",
    "C44_mod_arith",
    "C44_shift_mul",
    "C44_divide",
    "C44_montgomery",
    "C44_exp",
    "C44_gcd_lcm_inv",
    "C44_prime",
    "C44_divide_refuted",
    "C44_div_limb",
    "C44_inv",
    "C44_montgomery_any",
    "C44_inv_odd_any"
   ],
   "note": "For builds of the same target differing in debug assertions, overflow checks and arithmetic backend: same result and no panic, for buffer primitives, comparison, additive and modular arithmetic, shifts, multiplication, squaring, division, Montgomery arithmetic, exponentiation, division by a limb, gcd, lcm, inversion modulo odd numbers, powers of two and arbitrary moduli (all outcomes of the latter), screening and Miller-Rabin, each under the guard of its functional theorem (C01 to C39). C44_montgomery_any and C44_inv_odd_any: Montgomery products, powers, Miller-Rabin and inversion modulo odd numbers agree between the builds of a target for all odd moduli, also those for which the result is wrong. Outside the guards builds do differ: C44_divide_refuted, and the theorems named _debug_refuted and _release_refuted of C25, C30, C35, C36 and C37."
  },
  {
   "property": "C45",
   "status": "partial",
   "theorems": [
    "C45_compare",
    "C45_add_sub",
    "C45_mod_arith",
    "C45_shift_mul",
    "C45_divide",
    "C45_exp",
    "C45_gcd",
    "C45_miller_rabin",
    "C45_div_limb",
    "C45_inv_odd",
    "C45_inv_any",
    "C45_lcm",
    "C45_exp_any",
    "C45_miller_rabin_any",
    "C45_exp_limb_width_refuted"
   ],
   "note": "Same integers from re-encoded operands, also across limb widths, usize widths and build modes, for comparison, addition, subtraction, negation, modular addition and subtraction (equal lengths), shifts, multiplication, division (by integers and by limbs), exponentiation and Miller-Rabin (guards of C32 and C39), gcd (equal lengths), lcm and inversions (guards of C34, C36 and C37). C45_exp_any and C45_miller_rabin_any: with the same limb width the encoding does not matter for any odd modulus, lost carries included; C45_exp_limb_width_refuted: with different limb widths it does, for n = 2^128 - 2^64 - 1 (n-1)^2 mod n is 1 with 64 bit limbs and something else with 32 bit limbs. All functional theorems C01 to C42 are stated over values and hold for each encoding."
  },
  {
   "property": "C46",
   "status": "partial",
   "theorems": [
    "C46_limb_bytes_le",
    "C46_limb_bytes_be",
    "C46_bytes_mut_read",
    "C46_bytes_mut_write",
    "C46_nlimbs_for_len",
    "C46_nlimbs_overflow_debug",
    "C46_nlimbs_overflow_release",
    "C46_nlimbs_overflow_refuted"
   ],
   "note": "Both byte orders. The number of limbs for a length is the least sufficient one unless rounding up overflows; then debug builds panic and release builds return zero: C46_nlimbs_overflow_*."
  },
  {
   "property": "C47",
   "status": "proved",
   "theorems": [
    "C47_add_sub",
    "C47_sub_add",
    "C47_negate",
    "C47_shift",
    "C47_mod_add_sub",
    "C47_mul_div",
    "C47_div_mul"
   ],
   "note": "Buffers come back identical, not just equal in value."
  },
  {
   "property": "C48",
   "status": "partial",
   "theorems": [
    "C48_montgomery_product_partial",
    "C48_montgomery_product_any",
    "C48_montgomery_product_refuted",
    "C48_product_curves_refuted"
   ],
   "note": "Proved for moduli of at least two limbs, not within a factor of 1 + 1/B of the radix, and buffers with room for the intermediate product; for the moduli that close to the radix the product is right exactly if no carry gets lost (C48_montgomery_product_any). For every modulus close enough to the radix, among them the primes of NIST P-384 and secp256k1, there are two numbers whose product is wrong (C48_montgomery_product_refuted, C48_product_curves_refuted). Missing: single-limb moduli, see C29, and buffers without that room."
  },
  {
   "property": "C49",
   "status": "partial",
   "theorems": [
    "C49_key_agreement_partial",
    "C49_key_agreement_any",
    "C49_key_agreement_refuted"
   ],
   "note": "Proved under the guard of C32; for all other odd moduli of two or more limbs no panic, and agreement if none of the four exponentiations loses a carry (C49_key_agreement_any). The carry may get lost for the primes of the Diffie-Hellman groups in use, see C30_mul_modp_refuted. C49_key_agreement_refuted: with the prime of the group number 2 of RFC 2409, the parties beginning with n - 1 and choosing 2 and 3 both get wrong keys in every configuration, and different ones with 32 bit limbs."
  },
  {
   "property": "C50",
   "status": "partial",
   "theorems": [
    "C50_rsa_round_trip_partial",
    "C50_rsa_round_trip_any",
    "C50_rsa_round_trip_refuted"
   ],
   "note": "Proved under the guard of C32 and, without it, if none of the exponentiations loses a carry (C50_rsa_round_trip_any). The other moduli fail, see the refutations of C32. C50_rsa_round_trip_refuted: for either limb width a product of two primes (proved prime) and a message that does not come back, whatever the encodings and buffers."
  },
  {
   "property": "C51",
   "status": "partial",
   "theorems": [
    "C51_inverse_twice_partial",
    "C51_inverse_fermat_partial",
    "C51_inverse_twice_any_partial",
    "C51_inverse_fermat_any_partial",
    "C51_inverse_fermat_refuted"
   ],
   "note": "Proved under the guards of C34 (unused most significant limb, or all residues fitting) and, for exponentiation, those of C32 (modulus not near a power of the radix, or no carry lost). C51_inverse_fermat_refuted: modulo the prime 2^255-19 the two inverses of 50 disagree, see C39."
  },
  {
   "property": "C52",
   "status": "partial",
   "theorems": [
    "C52_gcd_lcm_partial",
    "C52_gcd_lcm_refuted"
   ],
   "note": "Proved under the guard of C37. C52_gcd_lcm_refuted: in release builds, operands whose lengths differ within alignment excess give a wrong product, with no error reported."
  },
  {
   "property": "C53",
   "status": "partial",
   "theorems": [
    "C53_probable_prime_partial",
    "C53_probable_prime_any_partial",
    "C53_search_partial",
    "C53_search_any_partial",
    "C53_probable_prime_value_partial",
    "C53_search_value_partial",
    "C53_probable_prime_room_partial",
    "C53_unaligned_room",
    "C53_search_room_partial",
    "C53_search_refuted"
   ],
   "note": "Probable primality for candidates inside the ranges C29, C30 and C39 are proved for (at least two limbs, length a multiple of the limb size, modulus clear of the lost carry); the search with all k candidates inside that range. Missing: the candidates for which these are refuted. C53_probable_prime_any_partial and C53_search_any_partial replace the guard on the modulus by the weaker demand that the products of the tests performed lose no carry. C53_probable_prime_value_partial and C53_search_value_partial say exactly what is found in all cases, lost carries included. C53_probable_prime_room_partial and C53_search_room_partial cover lengths which are not a multiple of the limb size, and by C53_unaligned_room all candidates up to 256/257 of the maximum for these. C53_search_refuted: for either limb width a prime (proved prime) that every search beginning at it passes over."
  },
  {
   "property": "C54",
   "status": "partial",
   "theorems": [
    "C54_rsa_key_partial",
    "C54_rsa_key_any_partial",
    "C54_rsa_key_round_trip_partial",
    "C54_rsa_key_round_trip_any_partial",
    "C54_rsa_key_round_trip_refuted"
   ],
   "note": "Key generation and round trip for buffers and numbers for which C32, C36 and C37 are proved. Missing: those for which they are refuted. C54_rsa_key_any_partial and C54_rsa_key_round_trip_any_partial drop the guards on the moduli where C32_exp_any and C34_inv_odd_exact allow it. C54_rsa_key_round_trip_refuted: keys made from certain primes do not give the message back."
  },
  {
   "property": "C55",
   "status": "partial",
   "theorems": [
    "C55_rsa_crt_partial",
    "C55_rsa_crt_any_partial",
    "C55_round_trip_partial",
    "C55_round_trip_any_partial",
    "C55_round_trip_refuted"
   ],
   "note": "The result is the power modulo p q and messages come back, for primes of at least two limbs clear of the lost carry (C30); C55_rsa_crt_any_partial and C55_round_trip_any_partial replace that guard by the demand that no carry gets lost in the powers and the product performed. Missing: primes and ciphertexts for which C29, C30 and C32 are refuted. C55_round_trip_refuted: for either limb width a pair of primes (proved prime), matching exponents and a message that does not come back."
  },
  {
   "property": "C56",
   "status": "partial",
   "theorems": [
    "C56_sign_partial",
    "C56_sign_refuted",
    "C56_verify_partial",
    "C56_round_trip_partial",
    "C56_sign_any_partial",
    "C56_verify_any_partial",
    "C56_round_trip_any_partial",
    "C56_group_fine"
   ],
   "note": "Signing, verification and the round trip: the _any_partial theorems for all p and q of at least two limbs, if no carry gets lost in the powers and products (C30, C32) and the residues of the inversion fit (C34); C56_sign_partial, C56_verify_partial and C56_round_trip_partial for p and q clear of the lost carry and q leaving its most significant limb unused, where C56_group_fine shows these conditions to hold. Missing: what happens otherwise. C56_sign_refuted is a group whose order does not leave the limb unused, for which the library silently makes wrong signatures."
  },
  {
   "property": "C57",
   "status": "proved",
   "theorems": [
    "C57_is_zero",
    "C57_add",
    "C57_sub",
    "C57_mul",
    "C57_div",
    "C57_primitives"
   ],
   "note": "Register-level model of the instructions (ModelAsm.v); C57_primitives ties the limb primitives used by all other theorems, in assembly builds, to the blocks. Memory is not part of the machine state: no instruction of the blocks has a memory operand."
  },
  {
   "property": "C58",
   "status": "partial",
   "theorems": [
    "C58_load",
    "C58_load_full",
    "C58_store",
    "C58_store_full",
    "C58_small_index",
    "C58_wraps_refuted",
    "C58_past_end_refuted",
    "C58_debug_past_end"
   ],
   "note": "What every access does is characterised exactly. That accesses past the end panic is false: C58_wraps_refuted, C58_past_end_refuted; in debug builds it holds but for zeros just past the end of big-endian buffers, C58_debug_past_end."
  },
  {
   "property": "C59",
   "status": "proved",
   "theorems": [
    "C59_shrink",
    "C59_shrink_panics",
    "C59_shrink_release",
    "C59_write_through",
    "C59_take",
    "C59_take_panics",
    "C59_take_rounds"
   ],
   "note": "Shrinking, writing to what has been shrunk, and splitting, for all three encodings and all builds. C59_take_panics leaves out lengths within a limb of the largest usize."
  },
  {
   "property": "C60",
   "status": "proved",
   "theorems": [
    "C60_sizes",
    "C60_compatible",
    "C60_backing",
    "C60_top_mask"
   ],
   "note": "For all three encodings. Lengths are those of existing buffers; overflow of the length computations for requested lengths near the largest usize is not modelled here."
  }
 ]
}