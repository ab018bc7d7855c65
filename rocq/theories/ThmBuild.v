(** C44: builds for the same target, with and without debug assertions and overflow checks,
    and with either arithmetic backend, neither panic nor differ in what they return, within
    the preconditions of the single operations' theorems.

    C45: the encodings of the operands (big-endian bytes, little-endian bytes, native limbs)
    have no influence on the integers computed; neither have the limb width, the width of
    usize or the build mode. *)
From Coq Require Import ZArith List Bool Lia.
Require Import Verif.Spec Verif.Monad Verif.ModelLimb Verif.ModelBuf Verif.SpecBuf
  Verif.ModelCmp Verif.ModelAdd Verif.ModelShift Verif.ModelMul Verif.ModelDiv Verif.SpecDiv Verif.ModelMont Verif.SpecMont
  Verif.ModelEuclid Verif.SpecEuclid Verif.ModelLcm Verif.InvFacts Verif.ThmLimb Verif.ModelPrime Verif.SpecPrime Verif.SpecBuild Verif.BuildProofs.
Import ListNotations.
Open Scope Z_scope.

(** Buffer primitives. *)
Theorem C44_buffer : forall (c1 c2 : cfg), same_target c1 c2 ->
  (forall b i, @mp_ok c1 b -> 0 <= i -> i * @LB c1 < @mp_len c1 b -> same_result (@load_l c1 b i) (@load_l c2 b i)) /\
  (forall b i v, @mp_ok c1 b -> 0 <= i -> i * @LB c1 < @mp_len c1 b -> 0 <= v < @B c1 -> v < 256 ^ (@mp_len c1 b - i * @LB c1) ->
    same_result (@store_l c1 b i v) (@store_l c2 b i v)) /\
  (forall b n, @mp_ok c1 b -> 0 <= n <= @mp_len c1 b -> same_result (@clear_bytes_above c1 b n) (@clear_bytes_above c2 b n) /\ same_result (@clear_bytes_below c1 b n) (@clear_bytes_below c2 b n)) /\
  (forall b n, @mp_ok c1 b -> 0 <= n < 2 ^ @UW c1 -> same_result (@ct_clear_bits_above_mp c1 b n) (@ct_clear_bits_above_mp c2 b n) /\ same_result (@ct_clear_bits_below_mp c1 b n) (@ct_clear_bits_below_mp c2 b n)) /\
  (forall dst src, @mp_ok c1 dst -> @mp_ok c1 src -> @mpval c1 src < 256 ^ @mp_len c1 dst -> same_result (@copy_from c1 dst src) (@copy_from c2 dst src)) /\
  (forall b i, @mp_ok c1 b -> 0 <= i -> same_result (@test_bit c1 b i) (@test_bit c2 b i)) /\
  (forall a b z, @mp_ok c1 a -> @mp_ok c1 b -> @mp_len c1 a = @mp_len c1 b -> same_result (@ct_swap_cond_mp c1 a b (@choice c1 z)) (@ct_swap_cond_mp c2 a b (@choice c2 z))).
Proof. exact b44_buffer. Qed.
Print Assumptions C44_buffer.

(** Comparisons. *)
Theorem C44_compare : forall (c1 c2 : cfg), same_target c1 c2 ->
  (forall a b, @mp_ok c1 a -> @mp_ok c1 b ->
    same_result (@ct_eq_mp_mp c1 a b) (@ct_eq_mp_mp c2 a b) /\
    same_result (@ct_neq_mp_mp c1 a b) (@ct_neq_mp_mp c2 a b) /\
    same_result (@ct_lt_mp_mp c1 a b) (@ct_lt_mp_mp c2 a b) /\
    same_result (@ct_leq_mp_mp c1 a b) (@ct_leq_mp_mp c2 a b) /\
    same_result (@ct_gt_mp_mp c1 a b) (@ct_gt_mp_mp c2 a b) /\
    same_result (@ct_geq_mp_mp c1 a b) (@ct_geq_mp_mp c2 a b)) /\
  (forall a, @mp_ok c1 a -> same_result (@ct_is_zero_mp c1 a) (@ct_is_zero_mp c2 a) /\ same_result (@ct_is_one_mp c1 a) (@ct_is_one_mp c2 a)) /\
  (forall a l, @mp_ok c1 a -> 0 <= l < @B c1 -> same_result (@ct_leq_mp_l c1 a l) (@ct_leq_mp_l c2 a l)).
Proof. exact b44_compare. Qed.
Print Assumptions C44_compare.

(** Addition, subtraction and negation. *)
Theorem C44_add_sub : forall (c1 c2 : cfg), same_target c1 c2 ->
  (forall a b, @mp_ok c1 a -> @mp_ok c1 b -> @nlimbs c1 b <= @nlimbs c1 a -> @mpval c1 b < 256 ^ @mp_len c1 a ->
    same_result (@ct_add_mp_mp c1 a b) (@ct_add_mp_mp c2 a b)) /\
  (forall a b, @mp_ok c1 a -> @mp_ok c1 b -> @nlimbs c1 b <= @nlimbs c1 a -> @mpval c1 b < 256 ^ @mp_len c1 a ->
    same_result (@ct_sub_mp_mp c1 a b) (@ct_sub_mp_mp c2 a b)) /\
  (forall a b z, @mp_ok c1 a -> @mp_ok c1 b -> @nlimbs c1 b <= @nlimbs c1 a -> (z = true -> @mpval c1 b < 256 ^ @mp_len c1 a) ->
    same_result (@ct_add_cond_mp_mp c1 a b (@choice c1 z)) (@ct_add_cond_mp_mp c2 a b (@choice c2 z))) /\
  (forall a b z, @mp_ok c1 a -> @mp_ok c1 b -> @nlimbs c1 b <= @nlimbs c1 a -> (z = true -> @mpval c1 b < 256 ^ @mp_len c1 a) ->
    same_result (@ct_sub_cond_mp_mp c1 a b (@choice c1 z)) (@ct_sub_cond_mp_mp c2 a b (@choice c2 z))) /\
  (forall a x, @mp_ok c1 a -> 0 <= x < @B c1 -> x < 256 ^ @mp_len c1 a -> same_result (@ct_add_mp_l c1 a x) (@ct_add_mp_l c2 a x)) /\
  (forall a x, @mp_ok c1 a -> 0 <= x < @B c1 -> x < 256 ^ @mp_len c1 a -> same_result (@ct_sub_mp_l c1 a x) (@ct_sub_mp_l c2 a x)) /\
  (forall a, @mp_ok c1 a -> same_result (@ct_negate_mp c1 a) (@ct_negate_mp c2 a)) /\
  (forall a z, @mp_ok c1 a -> same_result (@ct_negate_cond_mp c1 a (@choice c1 z)) (@ct_negate_cond_mp c2 a (@choice c2 z))).
Proof. exact b44_add_sub. Qed.
Print Assumptions C44_add_sub.

(** Modular addition, subtraction and negation. *)
Theorem C44_mod_arith : forall (c1 c2 : cfg), same_target c1 c2 ->
  (forall a b n, @mp_ok c1 a -> @mp_ok c1 b -> @mp_ok c1 n -> @mpval c1 a < @mpval c1 n -> @mpval c1 b < @mpval c1 n ->
    @mp_len c1 n <= @mp_len c1 a -> @nlimbs c1 a = @nlimbs c1 n \/ @mpval c1 a + @mpval c1 b < @B c1 ^ @nlimbs c1 n ->
    same_result (@ct_add_mod_mp_mp c1 a b n) (@ct_add_mod_mp_mp c2 a b n)) /\
  (forall a b n, @mp_ok c1 a -> @mp_ok c1 b -> @mp_ok c1 n -> @mpval c1 a < @mpval c1 n -> @mpval c1 b < @mpval c1 n ->
    @mp_len c1 n <= @mp_len c1 a -> @nlimbs c1 a = @nlimbs c1 n \/ @mpval c1 b <= @mpval c1 a ->
    same_result (@ct_sub_mod_mp_mp c1 a b n) (@ct_sub_mod_mp_mp c2 a b n)) /\
  (forall a n, @mp_ok c1 a -> @mp_ok c1 n -> @mpval c1 a < @mpval c1 n -> @mp_len c1 n <= @mp_len c1 a ->
    same_result (@ct_negate_mod_mp c1 a n) (@ct_negate_mod_mp c2 a n)).
Proof. exact b44_mod_arith. Qed.
Print Assumptions C44_mod_arith.

(** Shifts, multiplication and squaring (the latter under the guard of C23). *)
Theorem C44_shift_mul : forall (c1 c2 : cfg), same_target c1 c2 ->
  (forall a d, @mp_ok c1 a -> 0 <= d < 2 ^ @UW c1 -> same_result (@ct_lshift_mp c1 a d) (@ct_lshift_mp c2 a d)) /\
  (forall a d, @mp_ok c1 a -> 0 <= d < 2 ^ @UW c1 -> same_result (@ct_rshift_mp c1 a d) (@ct_rshift_mp c2 a d)) /\
  (forall a n b, @mp_ok c1 a -> @mp_ok c1 b -> 0 <= n <= @mp_len c1 a -> same_result (@ct_mul_trunc_mp_mp c1 a n b) (@ct_mul_trunc_mp_mp c2 a n b)) /\
  (forall a n b z, @mp_ok c1 a -> @mp_ok c1 b -> 0 <= n <= @mp_len c1 a -> @mpval c1 a < 256 ^ n ->
    same_result (@ct_mul_trunc_cond_mp_mp c1 a n b (@choice c1 z)) (@ct_mul_trunc_cond_mp_mp c2 a n b (@choice c2 z))) /\
  (forall a n x, @mp_ok c1 a -> 0 <= n <= @mp_len c1 a -> 0 <= x < @B c1 -> same_result (@ct_mul_trunc_mp_l c1 a n x) (@ct_mul_trunc_mp_l c2 a n x)) /\
  (forall a n, @mp_ok c1 a -> 0 <= n <= @mp_len c1 a ->
    (let limb i := @mpval c1 a mod 256 ^ n / @B c1 ^ i mod @B c1 in
     forall i j, 0 <= i < j -> limb i * limb j / @B c1 <> @B c1 / 2 - 1 /\ limb i * limb j / @B c1 <> @B c1 / 2 - 2) ->
    same_result (@ct_square_trunc_mp c1 a n) (@ct_square_trunc_mp c2 a n)).
Proof. exact b44_shift_mul. Qed.
Print Assumptions C44_shift_mul.

(** Division, each build using its own divisor for the same integer. *)
Theorem C44_divide : forall (c1 c2 : cfg), same_target c1 c2 -> forall d1 d2 D n, @divisor_for c1 d1 D -> @divisor_for c2 d2 D -> byte_len D n ->
  (forall uh ul q, @u_ok c1 uh ul -> @q_ok c1 q ->
    match q with Some b => @mp_len c1 ul + @uhlen c1 uh <= @mp_len c1 b + n | None => True end -> @q_fits c1 q (@uval c1 uh ul / D) ->
    same_result (@ct_div_mp_mp c1 uh ul d1 q) (@ct_div_mp_mp c2 uh ul d2 q)) /\
  (forall uh ul, @u_ok c1 uh ul -> same_result (@ct_mod_mp_mp c1 uh ul d1) (@ct_mod_mp_mp c2 uh ul d2)) /\
  (forall k r q, 0 <= k -> k + 9 < 2 ^ @UW c1 -> @mp_ok c1 r -> @q_ok c1 q -> Z.min n (k / 8 + 1) <= @mp_len c1 r ->
    match q with Some b => k / 8 + 1 <= @mp_len c1 b + n | None => True end -> @q_fits c1 q (2 ^ k / D) ->
    same_result (@ct_div_pow2_mp c1 k r d1 q) (@ct_div_pow2_mp c2 k r d2 q)) /\
  (forall u a e q, @mp_ok c1 u -> 0 <= a <= @mp_len c1 u -> @mpval c1 u < 256 ^ a -> 0 <= e -> a + e + @LB c1 < 2 ^ @UW c1 -> @q_ok c1 q ->
    Z.min n (a + e) <= @mp_len c1 u -> match q with Some b => a + e <= @mp_len c1 b + n | None => True end -> @q_fits c1 q (@mpval c1 u * 256 ^ e / D) ->
    same_result (@ct_div_lshifted_mp_mp c1 u a e d1 q) (@ct_div_lshifted_mp_mp c2 u a e d2 q)).
Proof. exact b44_divide. Qed.
Print Assumptions C44_divide.

(** Montgomery arithmetic, under the guards of C29 to C31. *)
Theorem C44_montgomery : forall (c1 c2 : cfg), same_target c1 c2 ->
  (forall t n g, @mp_ok c1 t -> @mp_ok c1 n -> Z.odd (@mpval c1 n) = true -> 2 <= @nlimbs c1 n -> @neg_inv c1 n g -> @len_compat c1 n (@mp_len c1 t) ->
    @len_compat c1 t (2 * @mp_len c1 n) -> @mpval c1 t < @mpval c1 n * @mg_radix c1 n ->
    same_result (@ct_montgomery_redc_mp c1 t n g) (@ct_montgomery_redc_mp c2 t n g)) /\
  (forall r a b n g, @mp_ok c1 r -> @mp_ok c1 a -> @mp_ok c1 b -> @mp_ok c1 n -> Z.odd (@mpval c1 n) = true -> @neg_inv c1 n g -> @len_compat c1 n (@mp_len c1 r) ->
    @len_compat c1 a (@mp_len c1 n) -> @len_compat c1 b (@mp_len c1 n) -> @mpval c1 a < @mpval c1 n -> @mpval c1 b < @mpval c1 n -> 0 < @mp_len c1 b ->
    @B c1 * @mpval c1 b + @mpval c1 n <= @B c1 * @mg_radix c1 n ->
    (@same_bytes c1 r n \/ @mpval c1 a * @mpval c1 b + @mg_radix c1 n * @mpval c1 n <= @mg_radix c1 n * 256 ^ Z.min (@mp_len c1 r) (@mp_len c1 n)) ->
    same_result (@ct_montgomery_mul_mod_mp_mp c1 r a b n g) (@ct_montgomery_mul_mod_mp_mp c2 r a b n g)) /\
  (forall t n, @mp_ok c1 t -> @mp_ok c1 n -> Z.odd (@mpval c1 n) = true -> @len_compat c1 n (@mp_len c1 t) ->
    same_result (@ct_to_montgomery_form_direct_mp c1 t n) (@ct_to_montgomery_form_direct_mp c2 t n)) /\
  (forall r n, @mp_ok c1 r -> @mp_ok c1 n -> Z.odd (@mpval c1 n) = true -> @len_compat c1 n (@mp_len c1 r) -> 16 * (@mp_len c1 n + @LB c1) + 8 < 2 ^ @UW c1 ->
    same_result (@ct_montgomery_radix2_mod_n_mp c1 r n) (@ct_montgomery_radix2_mod_n_mp c2 r n)) /\
  (forall n, @mp_ok c1 n -> same_result (@ct_montgomery_neg_n0_inv_mod_l_mp c1 n) (@ct_montgomery_neg_n0_inv_mod_l_mp c2 n)).
Proof. exact b44_montgomery. Qed.
Print Assumptions C44_montgomery.

(** Modular exponentiation, under the guard of C32: the same status and the same result; base and scratch buffers are used as
    scratch space, nothing is claimed about their final contents. *)
Theorem C44_exp : forall (c1 c2 : cfg) r a n e nbits s, same_target c1 c2 -> @mp_ok c1 r -> @mp_ok c1 a -> @mp_ok c1 n -> @mp_ok c1 e -> @mp_ok c1 (NE s) -> Z.odd (@mpval c1 n) = true -> 2 <= @nlimbs c1 n ->
  @len_compat c1 n (@mp_len c1 r) -> @len_compat c1 a (@mp_len c1 n) -> @mpval c1 a < @mpval c1 n -> @len_compat c1 n (@mp_len c1 a) -> @nlimbs c1 n <= zlen s ->
  16 * (@mp_len c1 n + @LB c1) + 8 < 2 ^ @UW c1 -> @mg_carry_ok c1 n -> @mg_room c1 r n -> @mg_room c1 (NE s) n -> 0 <= nbits ->
  both (@ct_exp_mod_odd_mp_mp c1 r a n e nbits s) (@ct_exp_mod_odd_mp_mp c2 r a n e nbits s) (fun x y => fst (fst x) = fst (fst y) /\ fst (fst (fst x)) = Ok tt).
Proof. exact b44_exp. Qed.
Print Assumptions C44_exp.

(** Greatest common divisor, least common multiple (guard of C37) and inversion modulo odd numbers (guard of C34). *)
Theorem C44_gcd_lcm_inv : forall (c1 c2 : cfg), same_target c1 c2 ->
  (forall f h, @mp_ok c1 f -> @mp_ok c1 h -> Z.odd (@mpval c1 f) = true -> @mut_compat c1 f h -> @gcd_len_ok c1 (Z.max (@mp_len c1 f) (@mp_len c1 h)) ->
    same_result (@ct_gcd_odd_mp_mp c1 f h) (@ct_gcd_odd_mp_mp c2 f h)) /\
  (forall a b, @mp_ok c1 a -> @mp_ok c1 b -> 0 < @mp_len c1 a -> @mut_compat c1 a b -> @gcd_len_ok c1 (Z.max (@mp_len c1 a) (@mp_len c1 b)) ->
    same_result (@ct_gcd_mp_mp c1 a b) (@ct_gcd_mp_mp c2 a b)) /\
  (forall res op0 l0 op1 l1 scr, @mp_ok c1 res -> @mp_ok c1 op0 -> @mp_ok c1 op1 -> @mp_ok c1 scr -> kind_of scr = kind_of op1 ->
    @mp_len c1 op0 = @mp_len c1 op1 -> @gcd_len_ok c1 (@mp_len c1 op0) -> 0 < l0 <= @mp_len c1 op0 -> 0 < l1 <= @mp_len c1 op1 ->
    @mpval c1 op0 < 256 ^ l0 -> @mpval c1 op1 < 256 ^ l1 -> l0 + l1 <= @mp_len c1 res -> l0 + l1 <= @mp_len c1 scr ->
    (kind_of op1 = KNE -> (l0 + l1) mod @LB c1 = 0 /\ l0 + l1 + (@ct_mp_limbs_align_len c1 (Z.max l0 l1) - Z.max l0 l1) <= @mp_len c1 res) ->
    both (@ct_lcm_mp_mp c1 res op0 l0 op1 l1 scr) (@ct_lcm_mp_mp c2 res op0 l0 op1 l1 scr)
      (fun x y => fst (fst (fst x)) = fst (fst (fst y)) /\ fst (fst (fst (fst x))) = Ok tt)) /\
  (forall res op0 n s0 s1, @mp_ok c1 res -> @mp_ok c1 op0 -> @mp_ok c1 n -> Z.odd (@mpval c1 n) = true -> 1 < @mpval c1 n ->
    @len_compat c1 n (@mp_len c1 res) -> @mut_compat c1 op0 n -> @mp_ok c1 (NE s0) -> @mp_ok c1 (NE s1) -> @nlimbs c1 n <= zlen s0 -> @nlimbs c1 n <= zlen s1 ->
    @gcd_len_ok c1 (@LB c1 * @nlimbs c1 n) -> @mpval c1 n <= @B c1 ^ (@nlimbs c1 n - 1) -> Z.gcd (@mpval c1 n) (@mpval c1 op0) = 1 ->
    both (@ct_inv_mod_odd_mp_mp c1 res op0 n s0 s1) (@ct_inv_mod_odd_mp_mp c2 res op0 n s0 s1)
      (fun x y => fst (fst x) = fst (fst y) /\ fst (fst (fst (fst x))) = Ok tt)).
Proof. exact b44_gcd_lcm_inv. Qed.
Print Assumptions C44_gcd_lcm_inv.

(** Primality screening, and the Miller-Rabin test under the guard of C39. *)
Theorem C44_prime : forall (c1 c2 : cfg), same_target c1 c2 ->
  (forall p s0 s1, @mp_ok c1 p -> 0 < @mp_len c1 p -> @mp_ok c1 (NE s0) -> @mp_ok c1 (NE s1) -> @nlimbs c1 p <= zlen s0 -> @nlimbs c1 p <= zlen s1 -> @gcd_len_ok c1 (@LB c1 * @nlimbs c1 p) ->
    same_result (@ct_composite_test_small_prime_gcd_mp c1 p s0 s1) (@ct_composite_test_small_prime_gcd_mp c2 p s0 s1)) /\
  (forall base p radix s0 s1 a, @mp_ok c1 base -> @mp_ok c1 p -> @mp_ok c1 radix -> @mp_ok c1 (NE s0) -> @mp_ok c1 (NE s1) ->
    Z.odd (@mpval c1 p) = true -> 2 < @mpval c1 p -> @len_compat c1 base (@mp_len c1 p) -> 0 < @mp_len c1 base -> @len_compat c1 radix (@mp_len c1 p) -> @nlimbs c1 radix = @nlimbs c1 p ->
    @nlimbs c1 p <= zlen s0 -> @nlimbs c1 p <= zlen s1 -> @mpval c1 base = (a * @mg_radix c1 p) mod @mpval c1 p -> @mpval c1 radix = @mg_radix c1 p mod @mpval c1 p ->
    @mg_carry_ok c1 p -> @mg_room c1 (NE s0) p -> @mg_room c1 (NE s1) p ->
    same_result (@ct_prime_test_miller_rabin_mp c1 base p radix s0 s1) (@ct_prime_test_miller_rabin_mp c2 base p radix s0 s1)).
Proof. exact b44_prime. Qed.
Print Assumptions C44_prime.

(** Comparisons tell the same, whatever the encodings and lengths. *)
Theorem C45_compare : forall (c1 c2 : cfg),
  (forall a1 b1 a2 b2, same_int c1 a1 c2 a2 -> same_int c1 b1 c2 b2 ->
    both (@ct_eq_mp_mp c1 a1 b1) (@ct_eq_mp_mp c2 a2 b2) (fun x y => exists t, x = @choice c1 t /\ y = @choice c2 t) /\
    both (@ct_neq_mp_mp c1 a1 b1) (@ct_neq_mp_mp c2 a2 b2) (fun x y => exists t, x = @choice c1 t /\ y = @choice c2 t) /\
    both (@ct_lt_mp_mp c1 a1 b1) (@ct_lt_mp_mp c2 a2 b2) (fun x y => exists t, x = @choice c1 t /\ y = @choice c2 t) /\
    both (@ct_leq_mp_mp c1 a1 b1) (@ct_leq_mp_mp c2 a2 b2) (fun x y => exists t, x = @choice c1 t /\ y = @choice c2 t) /\
    both (@ct_gt_mp_mp c1 a1 b1) (@ct_gt_mp_mp c2 a2 b2) (fun x y => exists t, x = @choice c1 t /\ y = @choice c2 t) /\
    both (@ct_geq_mp_mp c1 a1 b1) (@ct_geq_mp_mp c2 a2 b2) (fun x y => exists t, x = @choice c1 t /\ y = @choice c2 t)).
Proof. exact b45_compare. Qed.
Print Assumptions C45_compare.

(** Addition, subtraction and negation: the results are the same integers, and so are carries and borrows. *)
Theorem C45_add_sub : forall (c1 c2 : cfg),
  (forall a1 b1 a2 b2, reencoded c1 a1 c2 a2 -> same_int c1 b1 c2 b2 -> @mp_len c1 b1 <= @mp_len c1 a1 -> @mp_len c2 b2 <= @mp_len c2 a2 ->
    both (@ct_add_mp_mp c1 a1 b1) (@ct_add_mp_mp c2 a2 b2) (fun '(x, k) '(y, l) => reencoded c1 x c2 y /\ k = l)) /\
  (forall a1 b1 a2 b2, reencoded c1 a1 c2 a2 -> same_int c1 b1 c2 b2 -> @mp_len c1 b1 <= @mp_len c1 a1 -> @mp_len c2 b2 <= @mp_len c2 a2 ->
    both (@ct_sub_mp_mp c1 a1 b1) (@ct_sub_mp_mp c2 a2 b2) (fun '(x, k) '(y, l) => reencoded c1 x c2 y /\ k = l)) /\
  (forall z a1 b1 a2 b2, reencoded c1 a1 c2 a2 -> same_int c1 b1 c2 b2 -> @mp_len c1 b1 <= @mp_len c1 a1 -> @mp_len c2 b2 <= @mp_len c2 a2 ->
    both (@ct_add_cond_mp_mp c1 a1 b1 (@choice c1 z)) (@ct_add_cond_mp_mp c2 a2 b2 (@choice c2 z)) (fun '(x, k) '(y, l) => reencoded c1 x c2 y /\ k = l)) /\
  (forall z a1 b1 a2 b2, reencoded c1 a1 c2 a2 -> same_int c1 b1 c2 b2 -> @mp_len c1 b1 <= @mp_len c1 a1 -> @mp_len c2 b2 <= @mp_len c2 a2 ->
    both (@ct_sub_cond_mp_mp c1 a1 b1 (@choice c1 z)) (@ct_sub_cond_mp_mp c2 a2 b2 (@choice c2 z)) (fun '(x, k) '(y, l) => reencoded c1 x c2 y /\ k = l)) /\
  (forall a1 a2, reencoded c1 a1 c2 a2 -> both (@ct_negate_mp c1 a1) (@ct_negate_mp c2 a2) (fun x y => reencoded c1 x c2 y)).
Proof. exact b45_add_sub. Qed.
Print Assumptions C45_add_sub.

(** Modular addition and subtraction, operands and modulus of the same length. *)
Theorem C45_mod_arith : forall (c1 c2 : cfg),
  (forall a1 b1 n1 a2 b2 n2, reencoded c1 a1 c2 a2 -> same_int c1 b1 c2 b2 -> reencoded c1 n1 c2 n2 -> @mpval c1 a1 < @mpval c1 n1 -> @mpval c1 b1 < @mpval c1 n1 ->
    @mp_len c1 n1 = @mp_len c1 a1 ->
    both (@ct_add_mod_mp_mp c1 a1 b1 n1) (@ct_add_mod_mp_mp c2 a2 b2 n2) (fun '(x, r) '(y, s) => reencoded c1 x c2 y /\ r = Ok tt /\ s = Ok tt)) /\
  (forall a1 b1 n1 a2 b2 n2, reencoded c1 a1 c2 a2 -> same_int c1 b1 c2 b2 -> reencoded c1 n1 c2 n2 -> @mpval c1 a1 < @mpval c1 n1 -> @mpval c1 b1 < @mpval c1 n1 ->
    @mp_len c1 n1 = @mp_len c1 a1 ->
    both (@ct_sub_mod_mp_mp c1 a1 b1 n1) (@ct_sub_mod_mp_mp c2 a2 b2 n2) (fun '(x, r) '(y, s) => reencoded c1 x c2 y /\ r = Ok tt /\ s = Ok tt)).
Proof. exact b45_mod_arith. Qed.
Print Assumptions C45_mod_arith.

(** Shifts and multiplication. (The limb shifted out depends on the limb size.) *)
Theorem C45_shift_mul : forall (c1 c2 : cfg),
  (forall d a1 a2, reencoded c1 a1 c2 a2 -> 0 <= d < 2 ^ @UW c1 -> d < 2 ^ @UW c2 ->
    both (@ct_lshift_mp c1 a1 d) (@ct_lshift_mp c2 a2 d) (fun '(x, _) '(y, _) => reencoded c1 x c2 y)) /\
  (forall d a1 a2, reencoded c1 a1 c2 a2 -> 0 <= d < 2 ^ @UW c1 -> d < 2 ^ @UW c2 ->
    both (@ct_rshift_mp c1 a1 d) (@ct_rshift_mp c2 a2 d) (fun '(x, _) '(y, _) => reencoded c1 x c2 y)) /\
  (forall n a1 b1 a2 b2, reencoded c1 a1 c2 a2 -> same_int c1 b1 c2 b2 -> 0 <= n <= @mp_len c1 a1 ->
    both (@ct_mul_trunc_mp_mp c1 a1 n b1) (@ct_mul_trunc_mp_mp c2 a2 n b2) (fun x y => reencoded c1 x c2 y)).
Proof. exact b45_shift_mul. Qed.
Print Assumptions C45_shift_mul.

(** Division, by divisors for the same integer. *)
Theorem C45_divide : forall (c1 c2 : cfg) d1 d2 D n, @divisor_for c1 d1 D -> @divisor_for c2 d2 D -> byte_len D n ->
  (forall u1 q1 u2 q2, reencoded c1 u1 c2 u2 -> reencoded_opt c1 q1 c2 q2 ->
    match q1 with Some b => @mp_len c1 u1 <= @mp_len c1 b + n | None => True end -> @q_fits c1 q1 (@mpval c1 u1 / D) ->
    both (@ct_div_mp_mp c1 None u1 d1 q1) (@ct_div_mp_mp c2 None u2 d2 q2)
      (fun '(r, _, x, q) '(s, _, y, p) => r = Ok tt /\ s = Ok tt /\ reencoded c1 x c2 y /\ reencoded_opt c1 q c2 p)) /\
  (forall u1 u2, reencoded c1 u1 c2 u2 -> both (@ct_mod_mp_mp c1 None u1 d1) (@ct_mod_mp_mp c2 None u2 d2) (fun '(_, x) '(_, y) => reencoded c1 x c2 y)).
Proof. exact b45_divide. Qed.
Print Assumptions C45_divide.

(** Modular exponentiation, both calls meeting the guard of C32. *)
Theorem C45_exp : forall (c1 c2 : cfg) r1 a1 n1 e1 s1 r2 a2 n2 e2 s2 nbits, @mp_ok c1 r1 -> @mp_ok c1 a1 -> @mp_ok c1 n1 -> @mp_ok c1 e1 -> @mp_ok c1 (NE s1) -> 2 <= @nlimbs c1 n1 ->
  @len_compat c1 n1 (@mp_len c1 r1) -> @len_compat c1 a1 (@mp_len c1 n1) -> @len_compat c1 n1 (@mp_len c1 a1) -> @nlimbs c1 n1 <= zlen s1 ->
  16 * (@mp_len c1 n1 + @LB c1) + 8 < 2 ^ @UW c1 -> @mg_carry_ok c1 n1 -> @mg_room c1 r1 n1 -> @mg_room c1 (NE s1) n1 ->
  @mp_ok c2 r2 -> @mp_ok c2 a2 -> @mp_ok c2 n2 -> @mp_ok c2 e2 -> @mp_ok c2 (NE s2) -> 2 <= @nlimbs c2 n2 ->
  @len_compat c2 n2 (@mp_len c2 r2) -> @len_compat c2 a2 (@mp_len c2 n2) -> @len_compat c2 n2 (@mp_len c2 a2) -> @nlimbs c2 n2 <= zlen s2 ->
  16 * (@mp_len c2 n2 + @LB c2) + 8 < 2 ^ @UW c2 -> @mg_carry_ok c2 n2 -> @mg_room c2 r2 n2 -> @mg_room c2 (NE s2) n2 ->
  0 <= nbits -> Z.odd (@mpval c1 n1) = true -> @mpval c1 a1 < @mpval c1 n1 ->
  @mp_len c1 r1 = @mp_len c2 r2 -> @mpval c1 a1 = @mpval c2 a2 -> @mpval c1 n1 = @mpval c2 n2 -> @mpval c1 e1 = @mpval c2 e2 ->
  both (@ct_exp_mod_odd_mp_mp c1 r1 a1 n1 e1 nbits s1) (@ct_exp_mod_odd_mp_mp c2 r2 a2 n2 e2 nbits s2)
    (fun '(x, x', _, _) '(y, y', _, _) => x = Ok tt /\ y = Ok tt /\ reencoded c1 x' c2 y').
Proof. exact b45_exp. Qed.
Print Assumptions C45_exp.

(** Greatest common divisor, of operands of the same length. *)
Theorem C45_gcd : forall (c1 c2 : cfg),
  (forall a1 b1 a2 b2, reencoded c1 a1 c2 a2 -> reencoded c1 b1 c2 b2 -> 0 < @mp_len c1 a1 -> @mp_len c1 a1 = @mp_len c1 b1 -> @gcd_len_ok c1 (@mp_len c1 a1) -> @gcd_len_ok c2 (@mp_len c2 a2) ->
    both (@ct_gcd_mp_mp c1 a1 b1) (@ct_gcd_mp_mp c2 a2 b2) (fun '(r, x, u) '(s, y, v) => r = Ok tt /\ s = Ok tt /\ reencoded c1 x c2 y /\ reencoded c1 u c2 v)).
Proof. exact b45_gcd. Qed.
Print Assumptions C45_gcd.

(** The Miller-Rabin test, both calls meeting the guard of C39, for the same candidate and base: the base is passed in
    Montgomery form, which itself depends on the limb size. *)
Theorem C45_miller_rabin : forall (c1 c2 : cfg) base1 p1 radix1 s1 t1 base2 p2 radix2 s2 t2 a, @mp_ok c1 base1 -> @mp_ok c1 p1 -> @mp_ok c1 radix1 -> @mp_ok c1 (NE s1) -> @mp_ok c1 (NE t1) ->
  @len_compat c1 base1 (@mp_len c1 p1) -> 0 < @mp_len c1 base1 -> @len_compat c1 radix1 (@mp_len c1 p1) -> @nlimbs c1 radix1 = @nlimbs c1 p1 ->
  @nlimbs c1 p1 <= zlen s1 -> @nlimbs c1 p1 <= zlen t1 -> @mpval c1 base1 = (a * @mg_radix c1 p1) mod @mpval c1 p1 -> @mpval c1 radix1 = @mg_radix c1 p1 mod @mpval c1 p1 ->
  @mg_carry_ok c1 p1 -> @mg_room c1 (NE s1) p1 -> @mg_room c1 (NE t1) p1 ->
  @mp_ok c2 base2 -> @mp_ok c2 p2 -> @mp_ok c2 radix2 -> @mp_ok c2 (NE s2) -> @mp_ok c2 (NE t2) ->
  @len_compat c2 base2 (@mp_len c2 p2) -> 0 < @mp_len c2 base2 -> @len_compat c2 radix2 (@mp_len c2 p2) -> @nlimbs c2 radix2 = @nlimbs c2 p2 ->
  @nlimbs c2 p2 <= zlen s2 -> @nlimbs c2 p2 <= zlen t2 -> @mpval c2 base2 = (a * @mg_radix c2 p2) mod @mpval c2 p2 -> @mpval c2 radix2 = @mg_radix c2 p2 mod @mpval c2 p2 ->
  @mg_carry_ok c2 p2 -> @mg_room c2 (NE s2) p2 -> @mg_room c2 (NE t2) p2 ->
  @mpval c1 p1 = @mpval c2 p2 -> Z.odd (@mpval c1 p1) = true -> 2 < @mpval c1 p1 ->
  both (@ct_prime_test_miller_rabin_mp c1 base1 p1 radix1 s1 t1) (@ct_prime_test_miller_rabin_mp c2 base2 p2 radix2 s2 t2) (fun x y => exists b, x = Ok (@choice c1 b) /\ y = Ok (@choice c2 b)).
Proof. exact b45_miller_rabin. Qed.
Print Assumptions C45_miller_rabin.

Ltac okmp := split; [repeat constructor; vm_compute; congruence|vm_compute; reflexivity].

(** ** Where builds do differ *)

(** Outside the guard of C25: dividing 0xffff by 1 into a quotient buffer of one byte panics
    in a debug build and succeeds, with a wrong quotient, in a release build. *)
Theorem C44_divide_refuted : forall (c1 c2 : cfg), same_target c1 c2 -> debug c1 = true -> debug c2 = false ->
  exists u v b d u' q', @mp_ok c1 u /\ @mp_ok c1 v /\ @mp_ok c1 b /\ returns (@mp_divisor_new c1 v None) (Ok d) /\ returns (@mp_divisor_new c2 v None) (Ok d) /\
    @mp_len c1 u <= @mp_len c1 b + @mp_len c1 v /\
    panics (@ct_div_mp_mp c1 None u d (Some b)) /\ returns (@ct_div_mp_mp c2 None u d (Some b)) (Ok tt, None, u', Some q') /\
    @mpval c2 q' <> @mpval c2 u / @mpval c2 v.
Proof.
  intros [l1 m1 u1 d1] [l2 m2 u2 d2] [E1 E2] D1 D2. cbn in E1, E2, D1, D2. subst l2 u2 d1 d2.
  exists (BE [255; 255]), (BE [1]), (BE [0]). destruct l1, m1, m2, u1;
  (eexists; exists (BE [0; 0]), (BE [255]);
   split; [okmp|]; split; [okmp|]; split; [okmp|]; split; [vm_compute; reflexivity|]; split; [vm_compute; reflexivity|]; split; [vm_compute; congruence|];
   split; [vm_compute; reflexivity|]; split; [vm_compute; reflexivity|]; vm_compute; congruence).
Qed.
Print Assumptions C44_divide_refuted.

(** ** The hypotheses are met

    The premises of C44 are those of the single operations' theorems, for one of the builds: the examples beside those
    theorems meet them. Here, builds and encodings. *)

Definition c_dbg : cfg := mkcfg true false true true.
Definition c_rel : cfg := mkcfg true true true false.
Definition c_32 : cfg := mkcfg false false false true.

Example ex_target : same_target c_dbg c_rel /\ c_dbg <> c_rel.
Proof. split; [split; reflexivity|discriminate]. Qed.
Example ex_add_builds : same_result (@ct_add_mp_mp c_dbg (BE [255; 255]) (LE [1])) (@ct_add_mp_mp c_rel (BE [255; 255]) (LE [1])).
Proof.
  apply (proj1 (C44_add_sub c_dbg c_rel (proj1 ex_target))); [okmp|okmp|vm_compute; congruence|vm_compute; reflexivity].
Qed.
Example ex_add_value : returns (@ct_add_mp_mp c_rel (BE [255; 255]) (LE [1])) (BE [0; 0], 1).
Proof. vm_compute. reflexivity. Qed.

(** 0x0102030405060708 in native limbs of eight bytes, in native limbs of four bytes, and as bytes. *)
Example ex_reencoded : reencoded c_dbg (NE [0x0102030405060708]) c_32 (NE [0x05060708; 0x01020304]) /\
  reencoded c_dbg (NE [0x0102030405060708]) c_32 (BE [1; 2; 3; 4; 5; 6; 7; 8]) /\
  reencoded c_rel (LE [8; 7; 6; 5; 4; 3; 2; 1]) c_32 (BE [1; 2; 3; 4; 5; 6; 7; 8]).
Proof. repeat split; try (repeat constructor; vm_compute; congruence); vm_compute; reflexivity. Qed.
Example ex_add_encodings : both (@ct_add_mp_mp c_dbg (NE [0x0102030405060708]) (BE [255])) (@ct_add_mp_mp c_32 (NE [0x05060708; 0x01020304]) (LE [255; 0]))
  (fun '(x, k) '(y, l) => reencoded c_dbg x c_32 y /\ k = l).
Proof.
  apply (proj1 (C45_add_sub c_dbg c_32)); [apply ex_reencoded| |vm_compute; congruence|vm_compute; congruence].
  split; [okmp|split; [okmp|vm_compute; reflexivity]].
Qed.
Example ex_add_encodings_value : returns (@ct_add_mp_mp c_dbg (NE [0x0102030405060708]) (BE [255])) (NE [0x0102030405060807], 0) /\
  returns (@ct_add_mp_mp c_32 (NE [0x05060708; 0x01020304]) (LE [255; 0])) (NE [0x05060807; 0x01020304], 0).
Proof. split; vm_compute; reflexivity. Qed.
Example ex_divisors : exists d1 d2, @divisor_for c_dbg d1 10 /\ @divisor_for c_32 d2 10 /\ byte_len 10 1.
Proof.
  eexists. eexists. split; [exists (BE [10]), None; split; [okmp|]; split; [split; [vm_compute; congruence|vm_compute; reflexivity]|]; split; vm_compute; reflexivity|].
  split; [exists (LE [10; 0]), None; split; [okmp|]; split; [split; [vm_compute; congruence|vm_compute; reflexivity]|]; split; vm_compute; reflexivity|]. split; [vm_compute; congruence|split; [vm_compute; congruence|vm_compute; reflexivity]].
Qed.
