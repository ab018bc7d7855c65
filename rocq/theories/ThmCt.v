(** Theorems about constant time: property C43.

    The trace of a run lists, in order, the branches taken, the limbs loaded, stored and
    cleared with their indices, and the operands of hardware divisions.  Vocabulary
    (SpecCt.v): [agree]: two runs have the same trace, and either both panic or none does;
    [operations]: the trace without the indices.  [same_shape] (SpecBuf.v): same encoding,
    same length.  All values not mentioned by a hypothesis are secret: the two runs may
    differ in them.  The claims are about builds without debug assertions: a debug
    assertion may well evaluate, and branch on, secret operands. *)
From Coq Require Import ZArith List Bool Lia.
Require Import Verif.Spec Verif.Monad Verif.ModelLimb Verif.ModelBuf Verif.SpecBuf Verif.ModelCmp Verif.ModelAdd Verif.ModelShift
  Verif.ModelMul Verif.ModelDiv Verif.SpecDiv Verif.ModelMont Verif.SpecMont Verif.SpecCt Verif.CtTop.
Import ListNotations.
Open Scope Z_scope.

(** Limb arithmetic: no run depends on any operand, not even in the division by a limb divisor and its construction. *)
Theorem C43_limb : forall (c : cfg), debug c = false ->
  (forall a a', agree (lc_new a) (lc_new a')) /\
  (forall a a', agree (ct_is_nonzero_l a) (ct_is_nonzero_l a')) /\
  (forall a a', agree (ct_is_zero_l a) (ct_is_zero_l a')) /\
  (forall a a', agree (ct_find_last_set_bit_l a) (ct_find_last_set_bit_l a')) /\
  (forall a a', agree (ct_find_last_set_byte_l a) (ct_find_last_set_byte_l a')) /\
  (forall a a', agree (ct_find_first_set_bit_l a) (ct_find_first_set_bit_l a')) /\
  (forall a a', agree (ct_lsb_mask_l a) (ct_lsb_mask_l a')) /\
  (forall a a', agree (ct_l_to_hls a) (ct_l_to_hls a')) /\
  (forall a a', agree (ct_inv_mod_l a) (ct_inv_mod_l a')) /\
  (forall a b a' b', agree (ct_eq_l_l a b) (ct_eq_l_l a' b')) /\
  (forall a b a' b', agree (ct_neq_l_l a b) (ct_neq_l_l a' b')) /\
  (forall a b a' b', agree (ct_lt_l_l a b) (ct_lt_l_l a' b')) /\
  (forall a b a' b', agree (ct_leq_l_l a b) (ct_leq_l_l a' b')) /\
  (forall a b a' b', agree (ct_gt_l_l a b) (ct_gt_l_l a' b')) /\
  (forall a b a' b', agree (ct_geq_l_l a b) (ct_geq_l_l a' b')) /\
  (forall a b a' b', agree (ct_add_l_l a b) (ct_add_l_l a' b')) /\
  (forall a b a' b', agree (ct_sub_l_l a b) (ct_sub_l_l a' b')) /\
  (forall a b a' b', agree (ct_mul_l_l a b) (ct_mul_l_l a' b')) /\
  (forall a b a' b', agree (ct_arithmetic_rshift_l a b) (ct_arithmetic_rshift_l a' b')) /\
  (forall a b a' b', agree (ct_eq_usize_usize a b) (ct_eq_usize_usize a' b')) /\
  (forall a b a' b', agree (ct_lt_usize_usize a b) (ct_lt_usize_usize a' b')) /\
  (forall a b a' b', agree (ct_leq_usize_usize a b) (ct_leq_usize_usize a' b')) /\
  (forall a b a' b', agree (ct_gt_usize_usize a b) (ct_gt_usize_usize a' b')) /\
  (forall a b a' b', agree (ct_geq_usize_usize a b) (ct_geq_usize_usize a' b')) /\
  (forall a b d a' b' d', agree (ct_add_l_l_c a b d) (ct_add_l_l_c a' b' d')) /\
  (forall a b d a' b' d', agree (ct_sub_l_l_b a b d) (ct_sub_l_l_b a' b' d')) /\
  (forall a b d e a' b' d' e', agree (ct_mul_add_l_l_l_c a b d e) (ct_mul_add_l_l_l_c a' b' d' e')) /\
  (forall a b d e a' b' d' e', agree (ct_mul_sub_l_l_l_b a b d e) (ct_mul_sub_l_l_l_b a' b' d' e')) /\
  (forall d u d' u', agree (ct_l_divisor_do_div d u) (ct_l_divisor_do_div d' u')) /\
  (forall v v' d d', returns (ct_l_divisor_new v) (Ok d) -> returns (ct_l_divisor_new v') (Ok d') ->
    trace (ct_l_divisor_new v) = trace (ct_l_divisor_new v')).
Proof. exact ct_limb. Qed.
Print Assumptions C43_limb.

(** Buffer primitives: contents, conditions, values and the bit positions of the bit clearing routines are secret;
    limb indices, byte positions and single bit positions are public. *)
Theorem C43_buffer : forall (c : cfg), debug c = false ->
  (forall b b' i, same_shape b b' -> agree (load_l b i) (load_l b' i)) /\
  (forall b b' i v v', same_shape b b' -> agree (store_l b i v) (store_l b' i v')) /\
  (forall b b' i, same_shape b b' -> agree (clear_bytes_above b i) (clear_bytes_above b' i)) /\
  (forall b b' i, same_shape b b' -> agree (clear_bytes_below b i) (clear_bytes_below b' i)) /\
  (forall b b' i k k', same_shape b b' -> agree (clear_bytes_above_cond b i k) (clear_bytes_above_cond b' i k')) /\
  (forall b b' i i', same_shape b b' -> agree (ct_clear_bits_above_mp b i) (ct_clear_bits_above_mp b' i')) /\
  (forall b b' i i', same_shape b b' -> agree (ct_clear_bits_below_mp b i) (ct_clear_bits_below_mp b' i')) /\
  (forall b b' i, same_shape b b' -> agree (test_bit b i) (test_bit b' i)) /\
  (forall b b' i v v', same_shape b b' -> agree (set_bit_to b i v) (set_bit_to b' i v')) /\
  (forall b b' sz v v', same_shape b b' -> agree (set_to_native sz b v) (set_to_native sz b' v')) /\
  (forall b b', same_shape b b' -> agree (ct_find_first_set_bit_mp b) (ct_find_first_set_bit_mp b')) /\
  (forall b b', same_shape b b' -> agree (ct_find_last_set_bit_mp b) (ct_find_last_set_bit_mp b')) /\
  (forall b b' s s', same_shape b b' -> same_shape s s' -> agree (copy_from b s) (copy_from b' s')) /\
  (forall b b' s s' k k', same_shape b b' -> same_shape s s' -> agree (copy_from_cond b s k) (copy_from_cond b' s' k')) /\
  (forall b b' s s' k k', same_shape b b' -> same_shape s s' -> agree (ct_swap_cond_mp b s k) (ct_swap_cond_mp b' s' k')).
Proof. exact ct_buffer. Qed.
Print Assumptions C43_buffer.

(** Comparisons. *)
Theorem C43_compare : forall (c : cfg), debug c = false ->
  (forall a b a' b', same_shape a a' -> same_shape b b' -> agree (ct_eq_mp_mp a b) (ct_eq_mp_mp a' b')) /\
  (forall a b a' b', same_shape a a' -> same_shape b b' -> agree (ct_neq_mp_mp a b) (ct_neq_mp_mp a' b')) /\
  (forall a b a' b', same_shape a a' -> same_shape b b' -> agree (ct_lt_mp_mp a b) (ct_lt_mp_mp a' b')) /\
  (forall a b a' b', same_shape a a' -> same_shape b b' -> agree (ct_leq_mp_mp a b) (ct_leq_mp_mp a' b')) /\
  (forall a b a' b', same_shape a a' -> same_shape b b' -> agree (ct_gt_mp_mp a b) (ct_gt_mp_mp a' b')) /\
  (forall a b a' b', same_shape a a' -> same_shape b b' -> agree (ct_geq_mp_mp a b) (ct_geq_mp_mp a' b')) /\
  (forall a a', same_shape a a' -> agree (ct_is_zero_mp a) (ct_is_zero_mp a')) /\
  (forall a a', same_shape a a' -> agree (ct_is_one_mp a) (ct_is_one_mp a')) /\
  (forall a a' l l', same_shape a a' -> agree (ct_leq_mp_l a l) (ct_leq_mp_l a' l')).
Proof. exact ct_compare. Qed.
Print Assumptions C43_compare.

(** Addition, subtraction and negation, also the conditional ones: operands and conditions are secret. *)
Theorem C43_add_sub : forall (c : cfg), debug c = false ->
  (forall a b a' b', same_shape a a' -> same_shape b b' -> agree (ct_add_mp_mp a b) (ct_add_mp_mp a' b')) /\
  (forall a b a' b', same_shape a a' -> same_shape b b' -> agree (ct_sub_mp_mp a b) (ct_sub_mp_mp a' b')) /\
  (forall a b a' b' k k', same_shape a a' -> same_shape b b' -> agree (ct_add_cond_mp_mp a b k) (ct_add_cond_mp_mp a' b' k')) /\
  (forall a b a' b' k k', same_shape a a' -> same_shape b b' -> agree (ct_sub_cond_mp_mp a b k) (ct_sub_cond_mp_mp a' b' k')) /\
  (forall a a' l l', same_shape a a' -> agree (ct_add_mp_l a l) (ct_add_mp_l a' l')) /\
  (forall a a' l l', same_shape a a' -> agree (ct_sub_mp_l a l) (ct_sub_mp_l a' l')) /\
  (forall a a', same_shape a a' -> agree (ct_negate_mp a) (ct_negate_mp a')) /\
  (forall a a' k k', same_shape a a' -> agree (ct_negate_cond_mp a k) (ct_negate_cond_mp a' k')).
Proof. exact ct_add_sub. Qed.
Print Assumptions C43_add_sub.

(** Modular addition, subtraction and negation: operands and modulus are secret, except for whether the modulus is refused
    as too long for the operand. *)
Theorem C43_mod_arith : forall (c : cfg), debug c = false ->
  (forall a b n a' b' n', same_shape a a' -> same_shape b b' -> same_shape n n' -> mp_ok a -> mp_ok n -> mp_ok n' ->
    (len_compat n (mp_len a) <-> len_compat n' (mp_len a')) -> agree (ct_add_mod_mp_mp a b n) (ct_add_mod_mp_mp a' b' n')) /\
  (forall a b n a' b' n', same_shape a a' -> same_shape b b' -> same_shape n n' -> mp_ok a -> mp_ok n -> mp_ok n' ->
    (len_compat n (mp_len a) <-> len_compat n' (mp_len a')) -> agree (ct_sub_mod_mp_mp a b n) (ct_sub_mod_mp_mp a' b' n')) /\
  (forall a n a' n', same_shape a a' -> same_shape n n' -> mp_ok a -> mp_ok n -> mp_ok n' ->
    (len_compat n (mp_len a) <-> len_compat n' (mp_len a')) -> agree (ct_negate_mod_mp a n) (ct_negate_mod_mp a' n')).
Proof. exact ct_mod_arith. Qed.
Print Assumptions C43_mod_arith.

(** Multiplication and squaring, the length of the first factor being public; shifts by a public distance. *)
Theorem C43_mul_shift : forall (c : cfg), debug c = false ->
  (forall a n b a' b', same_shape a a' -> same_shape b b' -> agree (ct_mul_trunc_mp_mp a n b) (ct_mul_trunc_mp_mp a' n b')) /\
  (forall a n b a' b' k k', same_shape a a' -> same_shape b b' -> agree (ct_mul_trunc_cond_mp_mp a n b k) (ct_mul_trunc_cond_mp_mp a' n b' k')) /\
  (forall a n a', same_shape a a' -> agree (ct_square_trunc_mp a n) (ct_square_trunc_mp a' n)) /\
  (forall a n a' l l', same_shape a a' -> agree (ct_mul_trunc_mp_l a n l) (ct_mul_trunc_mp_l a' n l')) /\
  (forall a a' s, same_shape a a' -> agree (ct_lshift_mp a s) (ct_lshift_mp a' s)) /\
  (forall a a' s, same_shape a a' -> agree (ct_rshift_mp a s) (ct_rshift_mp a' s)).
Proof. exact ct_mul_shift. Qed.
Print Assumptions C43_mul_shift.

(** Division: dividend, divisor and the previous contents of the quotient buffer are secret.  Public are the number [n] of bytes
    of the divisor, which the constructor of the divisor is documented to reveal, the encodings and lengths of the buffers, and
    the distance and power of two exponent.  The quotient buffer, if any, has the limbs for any quotient possible. *)
Theorem C43_divide : forall (c : cfg), debug c = false -> forall v v' dec dec' d d' n, mp_ok v -> mp_ok v' -> same_shape v v' -> 0 <= dec_val dec < B -> 0 <= dec_val dec' < B ->
  returns (mp_divisor_new v dec) (Ok d) -> returns (mp_divisor_new v' dec') (Ok d') ->
  byte_len (mpval v - dec_val dec) n -> byte_len (mpval v' - dec_val dec') n ->
  (forall uh ul q uh' ul' q', same_opt uh uh' -> same_shape ul ul' -> same_opt q q' -> q_limbs_suffice q (mp_len ul + uhlen uh) n ->
    agree (ct_div_mp_mp uh ul d q) (ct_div_mp_mp uh' ul' d' q')) /\
  (forall uh ul uh' ul', same_opt uh uh' -> same_shape ul ul' -> agree (ct_mod_mp_mp uh ul d) (ct_mod_mp_mp uh' ul' d')) /\
  (forall k r q r' q', 0 <= k -> pow2_exp_ok k -> same_shape r r' -> same_opt q q' -> q_limbs_suffice q (k / 8 + 1) n ->
    agree (ct_div_pow2_mp k r d q) (ct_div_pow2_mp k r' d' q')) /\
  (forall k r r', same_shape r r' -> agree (ct_mod_pow2_mp k r d) (ct_mod_pow2_mp k r' d')) /\
  (forall u ul sl q u' q', same_shape u u' -> 0 <= ul <= mp_len u -> 0 <= sl -> ul + sl + LB < 2 ^ UW -> same_opt q q' -> q_limbs_suffice q (ul + sl) n ->
    agree (ct_div_lshifted_mp_mp u ul sl d q) (ct_div_lshifted_mp_mp u' ul sl d' q')) /\
  (forall u ul sl u', same_shape u u' -> 0 <= ul <= mp_len u -> 0 <= sl ->
    agree (ct_mod_lshifted_mp_mp u ul sl d) (ct_mod_lshifted_mp_mp u' ul sl d')).
Proof. exact ct_divide. Qed.
Print Assumptions C43_divide.

(** Division by a limb: dividend and divisor are secret, except, with a quotient buffer, for the number of bytes of the divisor. *)
Theorem C43_divide_limb : forall (c : cfg), debug c = false -> forall v v' d d', limb_divisor_for d v -> limb_divisor_for d' v' ->
  (forall u u', same_shape u u' -> agree (ct_mod_mp_l u d) (ct_mod_mp_l u' d')) /\
  (forall u u', same_shape u u' -> agree (ct_div_mp_l u d None) (ct_div_mp_l u' d' None)) /\
  (forall u q u' q' n, same_shape u u' -> same_shape q q' -> byte_len v n -> byte_len v' n -> agree (ct_div_mp_l u d (Some q)) (ct_div_mp_l u' d' (Some q'))).
Proof. exact ct_divide_limb. Qed.
Print Assumptions C43_divide_limb.

(** Construction of a divisor, without a decrement: the divisor is secret, except for its number of bytes. *)
Theorem C43_divisor_new : forall (c : cfg), debug c = false -> forall v v' d d', mp_ok v -> mp_ok v' -> same_shape v v' -> same_byte_len (mpval v) (mpval v') ->
  returns (mp_divisor_new v None) (Ok d) -> returns (mp_divisor_new v' None) (Ok d') ->
  trace (mp_divisor_new v None) = trace (mp_divisor_new v' None).
Proof. exact ct_divisor_new. Qed.
Print Assumptions C43_divisor_new.

(** Montgomery arithmetic: two runs that are both successful show the same trace.  Operands are secret, and so is the modulus,
    except for its number of bytes where a division by it is involved. *)
Theorem C43_montgomery : forall (c : cfg), debug c = false ->
  (forall t t' n n' g g' a a', same_shape t t' -> same_shape n n' ->
    returns (ct_montgomery_redc_mp t n g) (Ok tt, a) -> returns (ct_montgomery_redc_mp t' n' g') (Ok tt, a') ->
    trace (ct_montgomery_redc_mp t n g) = trace (ct_montgomery_redc_mp t' n' g')) /\
  (forall r r' x x' y y' n n' g g' a a', same_shape r r' -> same_shape x x' -> same_shape y y' -> same_shape n n' ->
    returns (ct_montgomery_mul_mod_mp_mp r x y n g) (Ok tt, a) -> returns (ct_montgomery_mul_mod_mp_mp r' x' y' n' g') (Ok tt, a') ->
    trace (ct_montgomery_mul_mod_mp_mp r x y n g) = trace (ct_montgomery_mul_mod_mp_mp r' x' y' n' g')) /\
  (forall r r' t t' n n' g g' x x' a a', same_shape r r' -> same_shape t t' -> same_shape n n' -> same_shape x x' ->
    returns (ct_to_montgomery_form_mp r t n g x) (Ok tt, a) -> returns (ct_to_montgomery_form_mp r' t' n' g' x') (Ok tt, a') ->
    trace (ct_to_montgomery_form_mp r t n g x) = trace (ct_to_montgomery_form_mp r' t' n' g' x')) /\
  (forall t t' n n' a a', same_shape t t' -> same_shape n n' -> mp_ok n -> mp_ok n' -> same_byte_len (mpval n) (mpval n') ->
    returns (ct_to_montgomery_form_direct_mp t n) (Ok tt, a) -> returns (ct_to_montgomery_form_direct_mp t' n') (Ok tt, a') ->
    trace (ct_to_montgomery_form_direct_mp t n) = trace (ct_to_montgomery_form_direct_mp t' n')) /\
  (forall r r' n n' a a', same_shape r r' -> same_shape n n' -> mp_ok n -> mp_ok n' -> same_byte_len (mpval n) (mpval n') ->
    returns (ct_montgomery_radix2_mod_n_mp r n) (Ok tt, a) -> returns (ct_montgomery_radix2_mod_n_mp r' n') (Ok tt, a') ->
    trace (ct_montgomery_radix2_mod_n_mp r n) = trace (ct_montgomery_radix2_mod_n_mp r' n')) /\
  (forall n n' g g', same_shape n n' ->
    returns (ct_montgomery_neg_n0_inv_mod_l_mp n) (Ok g) -> returns (ct_montgomery_neg_n0_inv_mod_l_mp n') (Ok g') ->
    trace (ct_montgomery_neg_n0_inv_mod_l_mp n) = trace (ct_montgomery_neg_n0_inv_mod_l_mp n')).
Proof. exact ct_montgomery. Qed.
Print Assumptions C43_montgomery.

(** Modular exponentiation: base, exponent and modulus are secret, except for the number of bytes of the modulus; public is
    the bound [k] on the number of bits of the exponent. Two runs that are both successful show the same trace. *)
Theorem C43_exp : forall (c : cfg), debug c = false ->
  (forall r r' a a' n n' g g' x x' e e' k s s' t u y t' u' y', same_shape r r' -> same_shape a a' -> same_shape n n' -> same_shape x x' ->
    same_shape e e' -> zlen s = zlen s' ->
    returns (ct_montgomery_exp_mod_odd_mp_mp r a n g x e k s) (Ok t, u, y) -> returns (ct_montgomery_exp_mod_odd_mp_mp r' a' n' g' x' e' k s') (Ok t', u', y') ->
    trace (ct_montgomery_exp_mod_odd_mp_mp r a n g x e k s) = trace (ct_montgomery_exp_mod_odd_mp_mp r' a' n' g' x' e' k s')) /\
  (forall r r' a a' n n' e e' k s s' t u x y t' u' x' y', same_shape r r' -> same_shape a a' -> same_shape n n' -> mp_ok n -> mp_ok n' ->
    same_byte_len (mpval n) (mpval n') -> same_shape e e' -> zlen s = zlen s' ->
    returns (ct_exp_mod_odd_mp_mp r a n e k s) (Ok t, u, x, y) -> returns (ct_exp_mod_odd_mp_mp r' a' n' e' k s') (Ok t', u', x', y') ->
    trace (ct_exp_mod_odd_mp_mp r a n e k s) = trace (ct_exp_mod_odd_mp_mp r' a' n' e' k s')).
Proof. exact ct_exp. Qed.
Print Assumptions C43_exp.

(** Shifts of a buffer of native limbs by a secret distance: the branches and the kinds of memory accesses don't depend on the
    distance, only the addresses do. *)
Theorem C43_shift_operations : forall (c : cfg), debug c = false -> forall l l' s s', zlen l = zlen l' ->
  (forall x x', returns (ct_lshift_mp (NE l) s) x -> returns (ct_lshift_mp (NE l') s') x' ->
    operations (ct_lshift_mp (NE l) s) = operations (ct_lshift_mp (NE l') s')) /\
  (forall x x', returns (ct_rshift_mp (NE l) s) x -> returns (ct_rshift_mp (NE l') s') x' ->
    operations (ct_rshift_mp (NE l) s) = operations (ct_rshift_mp (NE l') s')).
Proof. exact ct_shift_operations. Qed.
Print Assumptions C43_shift_operations.

Ltac okmp := split; [repeat constructor; vm_compute; congruence|vm_compute; reflexivity].

(** The addresses do depend on the distance of a shift, though: on a buffer of two limbs, shifting by one bit and by
    two limbs loads different limbs.  (The documentation of the shifts states so.) *)
Theorem C43_shift_address_refuted : forall (c : cfg), debug c = false -> exists l s s' x x',
  mp_ok (NE l) /\ returns (ct_lshift_mp (NE l) s) x /\ returns (ct_lshift_mp (NE l) s') x' /\
  trace (ct_lshift_mp (NE l) s) <> trace (ct_lshift_mp (NE l) s').
Proof.
  intros c H. exists [1; 2], 1, (2 * W). revert H. destruct c as [l64 am u64 d]. cbn [debug]. intros ->. destruct l64, am, u64;
  (eexists; eexists; split; [okmp|]; split; [vm_compute; reflexivity|]; split; [vm_compute; reflexivity|]; vm_compute; congruence).
Qed.
Print Assumptions C43_shift_address_refuted.

(** And in a big endian byte buffer whose length is not a multiple of the limb size, so do the branches: whether the
    partial high limb is loaded shows. *)
Theorem C43_shift_bytes_refuted : forall (c : cfg), debug c = false -> exists l s s' x x',
  mp_ok (BE l) /\ returns (ct_rshift_mp (BE l) s) x /\ returns (ct_rshift_mp (BE l) s') x' /\
  operations (ct_rshift_mp (BE l) s) <> operations (ct_rshift_mp (BE l) s').
Proof.
  intros c H. exists [1; 2; 3; 4; 5; 6; 7; 8; 9], 1, 72. revert H. destruct c as [l64 am u64 d]. cbn [debug]. intros ->. destruct l64, am, u64;
  (eexists; eexists; split; [okmp|]; split; [vm_compute; reflexivity|]; split; [vm_compute; reflexivity|]; vm_compute; congruence).
Qed.
Print Assumptions C43_shift_bytes_refuted.

(** The hypothesis on the quotient buffer in C43_divide cannot be dropped: division by 0xff of dividends of limb size and
    one byte more, with a quotient buffer of one limb, accepted by the function, branches on the quotient's topmost limb, to report that it doesn't fit. *)
Theorem C43_divide_quotient_refuted : forall (c : cfg), debug c = false -> exists u u' v d q x x', mp_ok u /\ mp_ok u' /\ same_shape u u' /\ mp_ok v /\ mp_ok q /\
  returns (mp_divisor_new v None) (Ok d) /\ mp_len u <= mp_len q + 1 /\ mpval v < 256 /\
  returns (ct_div_mp_mp None u d (Some q)) x /\ returns (ct_div_mp_mp None u' d (Some q)) x' /\
  trace (ct_div_mp_mp None u d (Some q)) <> trace (ct_div_mp_mp None u' d (Some q)).
Proof.
  intros c H. exists (BE (255 :: zrepeat 255 LB)), (BE (0 :: zrepeat 0 LB)), (BE [255]). revert H. destruct c as [l64 am u64 d]. cbn [debug]. intros ->.
  destruct l64, am, u64;
  (eexists; exists (NE [0]); eexists; eexists; split; [okmp|]; split; [okmp|]; split; [split; vm_compute; reflexivity|]; split; [okmp|]; split; [okmp|];
   split; [vm_compute; reflexivity|]; split; [vm_compute; congruence|]; split; [vm_compute; reflexivity|]; split; [vm_compute; reflexivity|];
   split; [vm_compute; reflexivity|]; vm_compute; congruence).
Qed.
Print Assumptions C43_divide_quotient_refuted.

(** The traces are fine enough to tell runs apart: the divisor not claimed to be constant time gives its operands away,
    and so does the search for the last nonzero limb of a divisor. *)
Example ex_nonct : let c := mkcfg true false true false in
  exists d d', returns (nonct_l_divisor_new 0x10001) (Ok d) /\ returns (nonct_l_divisor_new 0x20001) (Ok d') /\
  trace (nonct_l_divisor_do_div d (0, 7)) <> trace (nonct_l_divisor_do_div d' (0, 7)).
Proof. cbv zeta. eexists. eexists. split; [vm_compute; reflexivity|]. split; [vm_compute; reflexivity|]. vm_compute; congruence. Qed.
Example ex_divisor_len : let c := mkcfg true false true false in
  trace (mp_divisor_new (NE [1; 0]) None) <> trace (mp_divisor_new (NE [1; 1]) None).
Proof. vm_compute; congruence. Qed.

(** Concrete cases meeting the hypotheses. *)
Example ex_same_shape : let c := mkcfg true false true false in
  same_shape (BE [0; 0; 0]) (BE [1; 2; 3]) /\ trace (ct_add_mp_mp (BE [0; 0; 0]) (NE [0; 0])) = trace (ct_add_mp_mp (BE [1; 2; 3]) (NE [7; 9])) /\
  trace (ct_add_mp_mp (BE [0; 0; 0]) (NE [0; 0])) <> [].
Proof. cbv zeta. split; [split; vm_compute; reflexivity|]. split; [vm_compute; reflexivity|vm_compute; congruence]. Qed.
Example ex_mod : let c := mkcfg false false true false in
  let n := BE [1; 0; 0; 0; 7] in let n' := BE [9; 9; 9; 9; 9] in let a := LE [5; 5; 5; 5; 0] in
  mp_ok a /\ mp_ok n /\ mp_ok n' /\ same_shape n n' /\ (len_compat n (mp_len a) <-> len_compat n' (mp_len a)).
Proof.
  cbv zeta. split; [okmp|]. split; [okmp|]. split; [okmp|]. split; [split; vm_compute; reflexivity|].
  split; intros _; left; vm_compute; congruence.
Qed.
Example ex_divide : let c := mkcfg false false true false in
  let v := BE [0; 5; 1; 2; 3] in let v' := BE [0; 255; 0; 0; 9] in
  mp_ok v /\ mp_ok v' /\ same_shape v v' /\ byte_len (mpval v - dec_val (Some 1)) 4 /\ byte_len (mpval v' - dec_val None) 4 /\
  (exists d, returns (mp_divisor_new v (Some 1)) (Ok d)) /\ (exists d, returns (mp_divisor_new v' None) (Ok d)) /\
  q_limbs_suffice (Some (BE [0; 0; 0; 0; 0])) (mp_len (LE [1; 2; 3; 4; 5; 6; 7]) + uhlen (Some (LE [4]))) 4.
Proof.
  cbv zeta. split; [okmp|]. split; [okmp|]. split; [split; vm_compute; reflexivity|].
  split; [split; [lia|split; [vm_compute; congruence|vm_compute; reflexivity]]|].
  split; [split; [lia|split; [vm_compute; congruence|vm_compute; reflexivity]]|].
  split; [eexists; vm_compute; reflexivity|]. split; [eexists; vm_compute; reflexivity|]. vm_compute; congruence.
Qed.
Example ex_divide_limb : let c := mkcfg false false true false in
  exists d d', limb_divisor_for d 0x1234 /\ limb_divisor_for d' 0xfff1 /\ byte_len 0x1234 2 /\ byte_len 0xfff1 2.
Proof.
  cbv zeta. eexists. eexists. split; [split; [split; [lia|vm_compute; reflexivity]|vm_compute; reflexivity]|].
  split; [split; [split; [lia|vm_compute; reflexivity]|vm_compute; reflexivity]|]. split; split; lia.
Qed.
(** Two exponentiations, of different bases to different powers modulo different numbers, both successful. *)
Example ex_exp_ct : let c := mkcfg false false true false in
  let n := BE [0x80; 0; 0; 0; 0; 0; 0; 3] in let n' := BE [0x90; 0; 0; 1; 0; 0; 0; 5] in
  let call := ct_exp_mod_odd_mp_mp (NE [7; 7]) (LE [1; 2; 3; 4; 5; 6; 7; 8]) n (BE [0xfd]) 4 [9; 9] in
  let call' := ct_exp_mod_odd_mp_mp (NE [0; 0]) (LE [9; 2; 3; 4; 5; 6; 7; 8]) n' (BE [0x02]) 4 [1; 1] in
  mp_ok n /\ mp_ok n' /\ same_shape n n' /\ same_byte_len (mpval n) (mpval n') /\
  (exists r o s, returns call (Ok tt, r, o, s)) /\ (exists r o s, returns call' (Ok tt, r, o, s)) /\ trace call = trace call'.
Proof.
  cbv zeta. split; [okmp|]. split; [okmp|]. split; [split; vm_compute; reflexivity|].
  split.
  { intros k Hk. assert (E1 : 256 ^ 7 <= @mpval (mkcfg false false true false) (BE [0x80; 0; 0; 0; 0; 0; 0; 3]) < 256 ^ 8) by (split; [vm_compute; congruence|vm_compute; reflexivity]).
    assert (E2 : 256 ^ 7 <= @mpval (mkcfg false false true false) (BE [0x90; 0; 0; 1; 0; 0; 0; 5]) < 256 ^ 8) by (split; [vm_compute; congruence|vm_compute; reflexivity]).
    destruct (Z.le_gt_cases 8 k) as [G|G].
    - pose proof (Z.pow_le_mono_r 256 8 k). lia.
    - pose proof (Z.pow_le_mono_r 256 k 7). lia. }
  split; [eexists; eexists; eexists; vm_compute; reflexivity|]. split; [eexists; eexists; eexists; vm_compute; reflexivity|].
  vm_compute; reflexivity.
Qed.
