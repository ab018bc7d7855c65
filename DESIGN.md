# Formal model of cmpa-rs in Rocq

The model lives in `rocq/theories`. It is written function by function after
`/repo/src`; every definition cites the file and lines it models, and says where
it simplifies. Theorems about the properties of `properties.jsonl` are in files
named `Thm*.v`: statements closed by `exact`, their `Print Assumptions`
commands, and `Example`s showing that the hypotheses can be met. Theorems named
`…_refuted` exhibit a concrete violation of the property by the code; their proofs
evaluate the model on the witness. Theorem names start with the property's id.

## How the code is modelled

* **Configuration** (`cfg`, an implicit argument of everything): limb width
  (`u32` or `u64`), `usize` width (32 or 64), whether the x86_64 assembly backend
  is enabled, and whether debug assertions and overflow checks are on. Theorems
  quantify over all configurations.
* **Effects**: `M A` = a trace of events and either a value or a panic (`Monad.v`).
  A failing `debug_assert!` panics when `debug` is set and is skipped otherwise;
  `+ - * <<` on machine integers panic on overflow when `debug` is set and wrap
  otherwise; `wrapping_*` operations always wrap. Slice indices out of range
  panic in both modes. `assert!`, `unwrap` and `panic!` panic in both modes.
* **Events**: each limb load and store (with its index), each buffer clear, each
  branch and each hardware division (with its operands) is recorded. This is what
  the constant-time theorems compare.
* **Machine integers** are `Z`. `usize` values are `Z` as well.
  Simplification: additions and multiplications of *lengths and indices* are
  exact (no `usize` overflow), which is accurate as long as all buffers are
  smaller than 2^(usize bits - 4) bytes, and `mp_ok` demands just that. Subtractions
  of lengths are checked, and so are additions and multiplications involving a number
  the caller chooses freely: the exponent of `ct_div_pow2_mp`, the shift length of
  `ct_div_lshifted_mp_mp`, the position given to `clear_bytes_below` and the length given
  to `nlimbs_for_len` (`uadd`, `umul`, `unlimbs` in `ModelBuf.v`).
* **Buffers** `mp`: `BE bytes`, `LE bytes`, `NE limbs`, i.e. the three families
  of integer types of `limbs_buffer.rs`. `&mut` parameters are returned as new
  values. The generic trait methods become functions on the sum type; operations
  generic over several integer types may thus be called on any mix of encodings.
* **Loops** are structural recursion on the iteration count of the Rust range, or
  on fuel where the Rust loop is a `while`; exhausted fuel is a panic, so a theorem
  stating that a value is returned also states that the fuel suffices.

## Independent specification

What the statements are made of, apart from the names of the modelled functions:

* `Spec.v`: the integer a byte string or limb list represents, bit widths.
* `SpecBuf.v`: `mpval` (the integer a buffer represents), `mp_ok` (its elements are
  in range, and it is not absurdly long), `same_shape` (same encoding and length),
  `becomes b b' v` (`b'` has the shape of `b` and represents `v`), `yields m P`
  (`m` does not panic and its result satisfies `P`).
* `SpecMul.v`: the carries of squaring.
* `SpecDiv.v`, `SpecMont.v`, `SpecEuclid.v`, `SpecInv.v`, `SpecPrime.v`,
  `SpecSieve.v`, `SpecHex.v`: quotients fitting a buffer, Montgomery radix and
  reduction, length compatibility, inverses, strong probable primes, wheel
  candidates, hexadecimal digits.
* `SpecMontValue.v`: what Montgomery products, powers and the Miller-Rabin test
  compute when carries get lost, as numbers.
* `SpecSteps.v`: the division steps and the residues of an inversion modulo an odd
  number, as numbers.
* `SpecApp.v`: buffers and moduli suitable for sequences of modular operations;
  `SpecApp2.v` and `SpecApp3.v`: the calling programs of C53 to C56 (not code of the
  library); `SpecApp4.v`: what is taken for a prime, lost carries included;
  `SpecAppWrong.v`: the numbers of witnesses.
* `SpecCt.v`: equality of traces for all secrets.
* `SpecAccess.v`: which limb an access with an arbitrary index gets at.
* `SpecBuild.v`: builds for the same target, the same integer in different encodings.

## Per property

`MANIFEST.json` lists the theorems and, for partial ones, what is missing. "Partial"
nearly always means: the code violates the property as written. The positive theorem
is then stated under a guard and the violation is exhibited by a `_refuted` theorem.

| property | modelled | proof |
|---|---|---|
| C01-C08, C42 | limbs_buffer.rs accessors and helpers, byte exact | limb i = (value / B^i) mod B; loops by invariants over segments |
| C09 | CompositeLimbsBuffer | straddling loads against the concatenation; `C09_composite_any` covers every index and value (past the end: panic; too large for the last limb: panic in debug builds, cut in release builds) |
| C10-C15 | limb/mod.rs, x86_64_math.rs, usize_ct_cmp.rs | bit-level lemmas on Z, Granlund-Montgomery and Knuth quotient bounds |
| C16-C24 | cmp, add, shift, mul | loop invariants on value segments; operands that do not fit `op0` too for addition and subtraction (`C17_add_any`, `C18_sub_any`, `C18_limb_any`), any `op0` and `op0_in_len` for multiplication and squaring (`C22_mul_any`, `C23_square_any`, `C24_mul_limb_any`) |
| C25-C28 | div_impl.rs | Knuth's algorithm D with the code's quotient estimate |
| C29-C32 | montgomery_impl.rs | REDC invariant, exponentiation ladder |
| C33 | euclid_impl.rs | division step invariants; the number of iterations is proved sufficient in `GcdBound.v` (after Bernstein-Yang, Theorem 11.2), not assumed |
| C34-C37 | euclid, invmod, lcm | the transition matrices of the division steps applied to the cofactors, Hensel lifting, recombination; `SpecSteps.v` says, about numbers only, which residues the code can represent, and inversion is proved for every odd modulus whenever they all fit; `C34_inv_odd_exact` gives the outcome for every odd modulus and coprime operand, right or wrong, `C36_inv_any_exact` for arbitrary moduli |
| C38, C39 | prime_impl.rs | gcd with the embedded constants, whose prime factors are established; strong probable primes, Fermat's little theorem and square roots of one are proved from scratch |
| C40 | prime_impl.rs, wheel sieve | enumeration of residues coprime to the primorial, binary search |
| C41 | hexstr.rs | induction over the string |
| C43 | event traces | relational reasoning over pairs of runs (`Ct*.v`) |
| C44, C45 | everything above | corollaries: the results are determined by the values of the operands |
| C46 | the casts between limb slices and byte slices, for both byte orders | digit sums |
| C47-C56 | sequences of calls: round trips, Montgomery workflow, Diffie-Hellman, RSA, inverses, gcd and lcm, prime search, RSA keys, RSA by the Chinese remainder theorem, DSA signatures | composition of the theorems above with Fermat's little theorem and the Chinese remainder theorem for two primes; the primes of the witness in C50 by Pocklington's criterion, `PrimeCert.v` |
| C57 | the assembly blocks of x86_64_math.rs over registers and flags, for every admissible register assignment | symbolic execution, quotient bounds |
| C58 | limb accesses with usize arithmetic, for every index and value, `ModelAccess.v` | case analysis on overflow; equal to the accesses of `ModelBuf.v` for all indices the library uses, `C58_small_index` |
| C59 | `shrink_to`, `take` and writing to a shrunk buffer, `ModelBuf.v` | digit lists split in two, for the three encodings |
| C60 | lengths, limb counts, compatibility of lengths, masks, `ModelBuf.v` | integer arithmetic by cases on the encoding |

## Violations found

Each is a theorem, holding for all configurations unless its statement says otherwise.

| theorem | what happens |
|---|---|
| `C02_clear_bytes_below_past_end_refuted` | `clear_bytes_below` past the end of a native buffer leaves bytes standing, and panics on an empty one; exactly when, `C02_clear_bytes_below_past_end_limbs`, `C02_clear_bytes_below_huge` |
| `C05_copy_from_cond_refuted` | conditional copy into a longer destination loses copied bytes and does not clear the excess; what it leaves is stated exactly by `C05_copy_from_cond_longer` |
| `C42_try_into_short_refuted` | reading a native integer out of a shorter buffer may panic although the value fits; exactly when: `C42_try_into`. Storing one in a shorter buffer panics in debug builds even if the value fits: `C42_set_to_short` |
| `C19_longer_op0_refuted` | modular addition and subtraction with a modulus of fewer limbs than `op0` lose the carry out of the modulus' limbs; always when there is one, `C19_add_mod_longer`, `C19_sub_mod_longer` |
| `C23_square_*_refuted` | squaring loses a carry, or trips a debug assertion; exactly when: `C23_square_release_exact`, `C23_square_debug_panics` |
| `C25_new_zero_refuted` | building a divisor from zero panics instead of returning the error; always, `C25_new_zero` |
| `C25_div_*`, `C26_div_*`, `C27_div_*_refuted` | a quotient fitting the limbs but not the bytes of its buffer is truncated silently, or panics in a debug build; always, `C25_div_middle`, `C26_div_middle`, `C27_div_middle` |
| `C26_huge_exponent_refuted` | `ct_div_pow2_mp`, `ct_mod_pow2_mp` panic for the eight largest exponents (nine in a debug build): the computation of the length of 2^k overflows |
| `C27_huge_shift_refuted` | when dividend length plus shift length overflow, `ct_div_lshifted_mp_mp` reports success and a remainder of zero (release; a panic in a debug build, `C27_huge_shift_debug`); for which arguments, `C27_huge_shift_release` |
| `C46_nlimbs_overflow_refuted` | `nlimbs_for_len` of a length within the limb size of the largest usize: zero limbs (release) or a panic (debug); exactly when, `C46_nlimbs_overflow_debug`, `C46_nlimbs_overflow_release` |
| `C49_key_agreement_refuted`, `C50_rsa_round_trip_refuted` | as a consequence of C30, Diffie-Hellman with a standard prime gives wrong keys and an RSA message does not come back, in every configuration |
| `C53_search_refuted` | as a consequence of C30, a search for primes beginning at a prime just below a power of the limb base passes it over |
| `C54_rsa_key_round_trip_refuted` | as a consequence of C30, an RSA key made from two primes with a product just below a power of the limb base does not give back the message n - 2 |
| `C55_round_trip_refuted` | as a consequence of C30, RSA decryption by the Chinese remainder theorem with a prime just below a power of the limb base may silently give a wrong message |
| `C48_montgomery_product_refuted`, `C48_product_curves_refuted` | as a consequence of C30, for every odd modulus close to the radix, such as the primes of NIST P-384 and secp256k1, there are two numbers whose product through Montgomery form is silently wrong |
| `C51_inverse_fermat_refuted` | as a consequence of C39, modulo the prime 2^255-19 the inverse of 50 by Fermat's theorem and the one by the inversion function disagree, and no error is reported |
| `C52_gcd_lcm_refuted` | as a consequence of C37, in release builds, greatest common divisor times least common multiple need not be the product of operands whose lengths differ within alignment excess |
| `C56_sign_refuted` | as a consequence of C34, DSA signing with a group order filling the top limb of its buffer may silently make a wrong signature |
| `C28_div_limbs_refuted` | division by a limb panics for a quotient buffer which passes its length check; exactly when: `C28_div_limbs` |
| `C28_div_empty_refuted` | dividing an empty integer leaves the quotient buffer as it was; always, `C28_div_empty` |
| `C29_redc_single_limb_refuted` | Montgomery reduction modulo a single limb panics; exactly when: `C29_redc_single_limb` |
| `C30_mul_carry_refuted` | Montgomery multiplication loses a carry for moduli close to the radix: wrong residue; `C30_mul_exact` says for which factors. The primes of NIST P-384 and secp256k1, and of P-256 with 32 bit limbs, are such moduli: `C30_mul_curves_refuted`; so are all of three or more limbs starting with W + 1 set bits, among them the primes of the standard Diffie-Hellman groups: `C30_mul_top_ones_refuted`, `C30_mul_modp_refuted`; so is every modulus exceeding the guard of `C30_mul_partial` by a small margin: `C30_mul_near_radix_refuted` |
| `C30_mul_unaligned_modulus_*`, `C30_mul_short_result_*_refuted` | the unreduced product does not fit the result's or the modulus' bytes: panic or wrong residue; exactly when: `C30_mul_exact`; the value returned: `C30_mul_value` |
| `C30_mul_empty_refuted` | an empty second factor panics; exactly when: `C30_mul_empty` |
| `C32_exp_carry_refuted`, `C32_exp_single_limb_refuted` | the same through exponentiation: (n-1)^2 mod n comes out as 0 (products which do not lose carries are right for all moduli: `C32_exp_any`; the exact value in all cases: `C32_exp_value`); (n-1)^2 comes out different from 1 for the primes of P-192, P-384, Curve448 and secp256k1, the orders of P-384 and secp256k1 and the 1024 bit Diffie-Hellman prime: `C32_exp_minus_one_refuted`; single limb moduli panic, all of them: `C32_exp_single_limb` |
| `C34_inv_odd_refuted` | inversion modulo a number filling the top limb of its buffer succeeds with a number which is not the inverse; exactly when: `C34_inv_odd_exact`. The field primes of P-256, secp256k1, Curve25519 and P-384 and the group order of secp256k1 are such moduli, e.g. for 5, 4 and 50 modulo the first three: `C34_inv_curves_refuted` |
| `C34_inv_odd_rejects_refuted`, `C34_inv_odd_unreduced_refuted` | an invertible operand is reported as not coprime, or trips a debug assertion; a successful result equals the modulus |
| `C35_inv_pow2_*_refuted` | the squaring defect shows in inversion modulo powers of two; debug builds panic exactly if it does: `C35_inv_pow2_debug_exact` |
| `C36_inv_any_*refuted` | both of the above in inversion modulo arbitrary numbers, for the same primes; exactly when: `C36_inv_any_exact`. Even moduli are affected too, e.g. 2 (2^63 - 25) in one limb for 201 |
| `C37_lcm_*_refuted` | panics for operand and result lengths the checks admit; exactly when: `C37_lcm_exact`. With a first operand shorter than the length announced for the second one, release builds return a wrong result; which one: `C37_lcm_first_short` |
| `C39_*_refuted` | a strong probable prime is reported as composite (only if a product of the exponentiation loses a carry, `C39_miller_rabin_any`; the exact answer in all cases: `C39_miller_rabin_value`), e.g. the secp256k1 prime for base -2, `C39_secp256k1_refuted`; panics for unaligned candidates, short radixes, an empty base; the candidate 1 trips a debug assertion |
| `C43_shift_*_refuted` | the shift distance shows in addresses (as documented) and, on byte buffers of unaligned length, in branches |
| `C43_divide_quotient_refuted` | whether the quotient overflows a short buffer shows in the branches |
| `C43_gcd_*_refuted`, `C43_inverse_exists_refuted` | the power of two dividing both operands of a greatest common divisor shows in addresses and, on byte buffers, in branches; the non-existence of an inverse shows |
| `C43_sieve_start_refuted`, `C43_sieve_next_refuted` | the lower bound of the sieve is an operand of a hardware division; the number of iterations to the next candidate depends on it |
| `C43_lcm_bytes_refuted` | the bit length of the greatest common divisor shows in branches of the least common multiple of byte buffers |
| `C44_divide_refuted` | a debug and a release build differ |
| `C45_exp_limb_width_refuted` | the same exponentiation gives 1 with 64 bit limbs and another number with 32 bit limbs, n = 2^128 - 2^64 - 1 |
| `C58_wraps_refuted`, `C58_past_end_refuted` | in release builds, far out of range indices wrap around and get at existing limbs of byte buffers; just past an aligned end byte buffers read as zero and swallow what is stored; exactly: `C58_load`, `C58_store` and their variants for full limbs |

`gcd(0, 0)` is 1, as the source documents; this is stated by a theorem of its own.

## What is modelled and what is not

Modelled: all arithmetic functions of `limb/mod.rs`, `limb/x86_64_math.rs`,
`usize_ct_cmp.rs`, `limbs_buffer.rs`, `cmp_impl.rs`, `add_impl.rs`, `shift_impl.rs`,
`mul_impl.rs`, `div_impl.rs`, `montgomery_impl.rs`, `euclid_impl.rs`,
`invmod_impl.rs`, `lcm_impl.rs`, `prime_impl.rs`, `hexstr.rs`, including their error
returns, debug assertions and panics.

Not modelled:

* tests and test helpers;
* `zeroize`, `Drop`, lifetimes, the `coerce_lifetime` family, the borrowing structure
  (splitting and shrinking a buffer is list surgery in the model);
* allocation failure in `bytes_to_hexstr` and errors of a `fmt::Formatter`; the
  `LowerHex` formatting itself is modelled, the `0x` prefix included;
* `unsafe` pointer casts, but for `limb_slice_as_bytes{,_mut}`, which are modelled for
  both byte orders; the cast in the division is of an array of zeros;
* the inline assembly of `x86_64_math.rs` is modelled by its results in `ModelLimb.v`,
  and instruction by instruction in `ModelAsm.v`; `C57_primitives` proves that these
  agree. What is trusted is the semantics of its nine instructions and the compiler's
  honouring of the operand constraints;
* the compiler: whether the machine code keeps the branch-free structure of the
  source is outside of any model of the source.

## The constant-time judgement (C43)

Two runs with the same public data (encodings, lengths, and what the single theorem
lists) produce equal traces and both return. It is proved for builds without debug
assertions, since assertions branch on secrets by design. It is about the events
the model records: indices of limbs loaded and stored, branches, operands of hardware
divisions (`EDiv` comes only from the non-constant-time limb divisor and from the sieve). Where the model uses a plain `if` or `Z.min`
without an event, the condition is on lengths or indices, or the Rust code is
branch-free arithmetic the model abbreviates.

Covered: everything but the conversions from and to hexadecimal, which branch on digits and which nothing in the source claims to be constant time. Greatest common divisors,
inversions and primality tests are treated in `CtGcd.v`, for runs that are both
successful: their shift distances are the powers of two dividing the operands, so
these are public (`same_twos`), except that on native buffers only addresses depend
on them. For the least common multiple (`CtLcm.v`) the bit length of the greatest
common divisor is public too (`same_bit_len`), with the same exception. Of the sieve
(`CtSieve.v`) the search in its tables is constant time, and so are the branches and
limb accesses of its start; operands of divisions and the iterations to the next
candidate are not, which the source does not promise. Loads from the constant byte
tables of the sieve are not recorded.

## Trusted base

* Coq 8.16.1's kernel, including its virtual machine for the `vm_compute` steps of
  witnesses (`coqchk` re-checks these without it).
* `Print Assumptions` prints "Closed under the global context" for every theorem of
  every `Thm*.v` file: no axioms are used, neither own ones nor the standard library's.
  `coqchk` lists the parameters of the module type `Coq.ssr.ssrunder.UNDER_REL` of the
  standard library among the loaded libraries' assumptions: it is loaded with
  `ssreflect` tactics by a library, no theorem depends on it.
* The faithfulness of the model to the Rust text, by reading. The witnesses of the
  violations were traced through the Rust text. As a further check outside of this
  repository, the model was extracted to OCaml and run on the inputs of the unit tests
  in `/repo/src` (both limb widths, the three encodings); all results agreed with what
  the tests assert. No theorem depends on this.

## Testing the theorems

`seeded/LOG.jsonl` records experiments in a scratch copy: a definition of the model is
edited the way a bug would, and the theorems that no longer prove are listed.
