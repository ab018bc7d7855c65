(** Model of montgomery_impl.rs: Montgomery reduction, multiplication, conversion
    and exponentiation.  Mutable arguments are returned.  A [while] loop over a
    counter becomes a [zfor] over the range of its values. *)
From Coq Require Import ZArith List Bool.
Require Import Verif.Spec Verif.Monad Verif.ModelLimb Verif.ModelBuf Verif.ModelCmp Verif.ModelAdd Verif.ModelDiv.
Import ListNotations.
Open Scope Z_scope.

Section Model.
Context {c : cfg}.

(** ct_montgomery_radix_shift_len, montgomery_impl.rs:20-22 *)
Definition ct_montgomery_radix_shift_len (n_len : Z) : Z := ct_mp_limbs_align_len n_len.
(** ct_montgomery_radix_shift_mp_nlimbs, montgomery_impl.rs:24-26 *)
Definition ct_montgomery_radix_shift_mp_nlimbs (n_len : Z) : Z := ct_mp_nlimbs n_len.

(** The error enums of montgomery_impl.rs:28-31, 187-192, 336-341, 680-684, 752-758,
    932-939, 994-1000, merged into one. *)
Inductive mg_err :=
  MgInvalidModulus | MgInsufficientResultSpace | MgInputValueOutOfRange | MgInsufficientScratchSpace
| MgInconsistentOperandLengths | MgInconsistentRadixLength.

(** ct_montgomery_neg_n0_inv_mod_l_mp, montgomery_impl.rs:33-45 *)
Definition ct_montgomery_neg_n0_inv_mod_l_mp (n : mp) : M (result Z mg_err) :=
  mif mp_is_empty n then ret (Err MgInvalidModulus) else
  let! n0 := load_l n 0 in
  let! even := ct_eq_l_l (Z.land n0 1) 0 in
  mif negb (lc_unwrap even =? 0) then ret (Err MgInvalidModulus) else
  let! n0_inv_mod_l := ct_inv_mod_l n0 in
  ret (Ok (lwadd (lnot n0_inv_mod_l) 1)).

(** ** CtMontgomeryRedcKernel, montgomery_impl.rs:69-185 *)
Record redc_kernel := mk_redc { rk_rshift : Z; rk_mask : Z; rk_m : Z; rk_last : Z; rk_carry : Z }.

(** redc_rshift_lo, montgomery_impl.rs:78-87 *)
Definition redc_rshift_lo (redc_pow2_rshift redc_pow2_mask val : Z) : M Z :=
  lshr (Z.land val (lnot redc_pow2_mask)) redc_pow2_rshift.
(** redc_lshift_hi, montgomery_impl.rs:89-98 *)
Definition redc_lshift_hi (redc_pow2_rshift redc_pow2_mask val : Z) : M Z :=
  let! s := sub32 W redc_pow2_rshift in
  lshl (Z.land val redc_pow2_mask) (s mod W).

(** start, montgomery_impl.rs:100-137 *)
Definition redc_start (redc_pow2_exp t0_val n0_val neg_n0_inv_mod_l : Z) : M redc_kernel :=
  dassert (redc_pow2_exp <=? W) ;;
  let redc_pow2_rshift := redc_pow2_exp mod W in
  let! redc_pow2_mask := ct_lsb_mask_l redc_pow2_exp in
  let neg_n0_inv_mod_l := Z.land neg_n0_inv_mod_l redc_pow2_mask in
  dassert (Z.land (lwmul neg_n0_inv_mod_l n0_val) redc_pow2_mask =? redc_pow2_mask) ;;
  let m := Z.land (lwmul t0_val neg_n0_inv_mod_l) redc_pow2_mask in
  let! '(carry, redced_t0_val) := ct_mul_add_l_l_l_c t0_val m n0_val 0 in
  dassert (Z.land redced_t0_val redc_pow2_mask =? 0) ;;
  let! last_redced_val := redc_rshift_lo redc_pow2_rshift redc_pow2_mask redced_t0_val in
  ret (mk_redc redc_pow2_rshift redc_pow2_mask m last_redced_val carry).

(** update, montgomery_impl.rs:139-153; returns the new state and the result limb. *)
Definition redc_update (k : redc_kernel) (t_val n_val : Z) : M (redc_kernel * Z) :=
  let! '(carry, redced_t_val) := ct_mul_add_l_l_l_c t_val (rk_m k) n_val (rk_carry k) in
  let! hi := redc_lshift_hi (rk_rshift k) (rk_mask k) redced_t_val in
  let result_val := Z.lor (rk_last k) hi in
  let! last_redced_val := redc_rshift_lo (rk_rshift k) (rk_mask k) redced_t_val in
  ret (mk_redc (rk_rshift k) (rk_mask k) (rk_m k) last_redced_val carry, result_val).

(** finish, montgomery_impl.rs:155-163; returns (carry, high limb). *)
Definition redc_finish (k : redc_kernel) (t_val : Z) : M (Z * Z) :=
  dassert (Z.land t_val (lnot (rk_mask k)) =? 0) ;;
  let! '(carry, redced_t_val) := ct_add_l_l t_val (rk_carry k) in
  let! hi := redc_lshift_hi (rk_rshift k) (rk_mask k) redced_t_val in
  ret (carry, Z.lor (rk_last k) hi).

(** finish_in_twos_complement, montgomery_impl.rs:165-184; returns (sign, high limb). *)
Definition redc_finish_in_twos_complement (k : redc_kernel) (t_val : Z) : M (Z * Z) :=
  let! s := sub32 W 1 in
  let! t_val_sign := lshr t_val s in
  let! '(carry, redced_t_val) := ct_add_l_l t_val (rk_carry k) in
  dassert ((carry =? 0) || (t_val_sign =? 1)) ;;
  dassert_m (let! x := lshr redced_t_val s in ret ((carry =? 0) || (x =? 0))) ;;
  dassert_m (let! x := lshr redced_t_val s in ret ((carry =? 1) || (x =? t_val_sign))) ;;
  let redced_t_val_sign := Z.lxor carry t_val_sign in
  dassert_m (let! x := lshr redced_t_val s in ret (x =? redced_t_val_sign)) ;;
  let redced_t_val_extended_sign := Z.land (lwsub 0 redced_t_val_sign) (lnot (rk_mask k)) in
  let! hi := redc_lshift_hi (rk_rshift k) (rk_mask k) redced_t_val in
  ret (redced_t_val_sign, Z.lor (Z.lor (rk_last k) hi) redced_t_val_extended_sign).

(** debug_assert!(ct_geq_mp_mp(a, b).unwrap() == 0), montgomery_impl.rs:266,508 *)
Definition dassert_not_geq (a b : mp) : M unit :=
  dassert_m (let! r := ct_geq_mp_mp a b in ret (lc_unwrap r =? 0)).

(** The end of ct_montgomery_redc_mp and ct_montgomery_mul_mod_mp_mp, montgomery_impl.rs:258-266 and
    499-508: put the high limb back and do the final conditional subtraction.  The high limb's
    mask is taken from [mask_src], which is [t] in the former and [n] in the latter. *)
Definition mg_finish (t mask_src n : mp) (t_nlimbs carry high_shadow : Z) : M mp :=
  let! high_shadow_mask := partial_high_mask mask_src in
  let high_shadow_shift := partial_high_shift mask_src in
  assert ((high_shadow_shift =? 0) || (carry =? 0)) ;;
  let! s := lshr (Z.land high_shadow (lnot high_shadow_mask)) high_shadow_shift in
  let carry := Z.lor carry s in
  let high_shadow := Z.land high_shadow high_shadow_mask in
  let! l := usub t_nlimbs 1 in
  let! t := store_l t l high_shadow in
  let! cc := lc_new carry in
  let! g := ct_geq_mp_mp t n in
  let! '(t, _) := ct_sub_cond_mp_mp t n (lc_or cc g) in
  dassert_not_geq t n ;;
  ret t.

(** One iteration of the outer loop of ct_montgomery_redc_mp, montgomery_impl.rs:220-255. *)
Definition redc_step (n : mp) (n0_val neg_n0_inv_mod_l t_nlimbs n_nlimbs : Z) (st : mp * Z * Z) : M (mp * Z * Z) :=
  let '(t, reduced_t_carry, t_high_shadow) := st in
  let! t0 := load_l t 0 in
  let! k := redc_start W t0 n0_val neg_n0_inv_mod_l in
  let! '(t, k) := zfor 0 (n_nlimbs - 2) (fun j '(t, k) =>
    dassert_m (let! l := usub t_nlimbs 1 in ret (j <? l)) ;;
    let! t_val := load_l_full t (j + 1) in
    let! n_val := load_l_full n (j + 1) in
    let! '(k, r) := redc_update k t_val n_val in
    let! t := store_l_full t j r in
    ret (t, k)) (t, k) in
  let j := Z.max 0 (n_nlimbs - 2) in
  dassert (j + 2 =? n_nlimbs) ;;
  let! t_val := (mif negb (j + 2 =? t_nlimbs) then load_l_full t (j + 1) else ret t_high_shadow) in
  let! n_val := load_l n (j + 1) in
  let! '(k, r) := redc_update k t_val n_val in
  let! t := store_l_full t j r in
  let j := j + 1 in
  let! '(t, k) := zfor j (t_nlimbs - 2) (fun j '(t, k) =>
    let! t_val := load_l_full t (j + 1) in
    let! '(k, r) := redc_update k t_val 0 in
    let! t := store_l_full t j r in
    ret (t, k)) (t, k) in
  let j := Z.max j (t_nlimbs - 2) in
  let! l := usub t_nlimbs 1 in
  let! '(t, k, j) := (mif (j + 1 =? l) then
      let! '(k, r) := redc_update k t_high_shadow 0 in
      let! t := store_l_full t j r in
      ret (t, k, j + 1)
    else ret (t, k, j)) in
  dassert (j =? l) ;;
  let! '(reduced_t_carry, t_high_shadow) := redc_finish k reduced_t_carry in
  ret (t, reduced_t_carry, t_high_shadow).

(** ct_montgomery_redc_mp, montgomery_impl.rs:194-268 *)
Definition ct_montgomery_redc_mp (t n : mp) (neg_n0_inv_mod_l : Z) : M (result unit mg_err * mp) :=
  mif mp_is_empty n then ret (Err MgInvalidModulus, t) else
  let! n0_val := load_l n 0 in
  let! even := ct_eq_l_l (Z.land n0_val 1) 0 in
  mif negb (lc_unwrap even =? 0) then ret (Err MgInvalidModulus, t) else
  let! compat := len_is_compatible_with n (mp_len t) in
  mif negb compat then ret (Err MgInsufficientResultSpace, t) else
  let! compat := len_is_compatible_with t (2 * mp_len n) in
  mif negb compat then ret (Err MgInputValueOutOfRange, t) else
  let t_nlimbs := nlimbs t in
  let n_nlimbs := nlimbs n in
  dassert (lwmul n0_val neg_n0_inv_mod_l =? lnot 0) ;;
  let! l := usub t_nlimbs 1 in
  let! t_high_shadow := load_l t l in
  let! '(t, reduced_t_carry, t_high_shadow) :=
    zfor 0 (ct_montgomery_radix_shift_mp_nlimbs (mp_len n))
      (fun _ => redc_step n n0_val neg_n0_inv_mod_l t_nlimbs n_nlimbs) (t, 0, t_high_shadow) in
  let! t := mg_finish t t n t_nlimbs reduced_t_carry t_high_shadow in
  ret (Ok tt, t).

(** Limb [j + 1] of the accumulator: the high one lives in the shadow,
    montgomery_impl.rs:397-401, 415-419, 436-440, 467-471, 480-484. *)
Definition mg_acc (result : mp) (is_high : bool) (j result_high_shadow : Z) : M Z :=
  mif negb is_high then load_l_full result j else ret result_high_shadow.

(** The body of the first outer loop of ct_montgomery_mul_mod_mp_mp, montgomery_impl.rs:391-460. *)
Definition mg_mul_step (op0 op1 n : mp) (n0_val neg_n0_inv_mod_l : Z) (i : Z) (st : mp * Z * Z) : M (mp * Z * Z) :=
  let '(result, result_carry, result_high_shadow) := st in
  let n_nlimbs := nlimbs n in
  let op1_nlimbs := nlimbs op1 in
  dassert (result_carry <=? 1) ;;
  let! op0_val := load_l op0 i in
  let! result_val := mg_acc result (n_nlimbs =? 1) 0 result_high_shadow in
  let! op1_val := load_l op1 0 in
  let! '(op0_op1_add_carry, result_val) := ct_mul_add_l_l_l_c result_val op0_val op1_val 0 in
  let! k := redc_start W result_val n0_val neg_n0_inv_mod_l in
  let! '(result, k, op0_op1_add_carry) := zfor 0 (op1_nlimbs - 1) (fun j '(result, k, op0_op1_add_carry) =>
    let! op1_val := load_l op1 (j + 1) in
    let! l := usub n_nlimbs 1 in
    let! result_val := mg_acc result (j + 1 =? l) (j + 1) result_high_shadow in
    let! '(op0_op1_add_carry, result_val) := ct_mul_add_l_l_l_c result_val op0_val op1_val op0_op1_add_carry in
    let! n_val := load_l n (j + 1) in
    let! '(k, result_val) := redc_update k result_val n_val in
    let! result := store_l_full result j result_val in
    ret (result, k, op0_op1_add_carry)) (result, k, op0_op1_add_carry) in
  let j := Z.max 0 (op1_nlimbs - 1) in
  dassert (j + 1 =? op1_nlimbs) ;;
  let! '(result, k, op0_op1_add_carry) := zfor j (n_nlimbs - 1) (fun j '(result, k, op0_op1_add_carry) =>
    let! l := usub n_nlimbs 1 in
    let! result_val := mg_acc result (j + 1 =? l) (j + 1) result_high_shadow in
    let! '(op0_op1_add_carry, result_val) := ct_add_l_l result_val op0_op1_add_carry in
    let! n_val := load_l n (j + 1) in
    let! '(k, result_val) := redc_update k result_val n_val in
    let! result := store_l_full result j result_val in
    ret (result, k, op0_op1_add_carry)) (result, k, op0_op1_add_carry) in
  let j := Z.max j (n_nlimbs - 1) in
  dassert (j + 1 =? n_nlimbs) ;;
  dassert (result_carry <=? 1) ;;
  let! '(result_carry, result_val) := ct_add_l_l result_carry op0_op1_add_carry in
  dassert (result_carry <=? 1) ;;
  dassert ((result_carry =? 0) || (result_val =? 0)) ;;
  let! '(result_carry, result_val) := redc_finish k result_val in
  dassert (result_carry <=? 1) ;;
  ret (result, result_carry, result_val).

(** The body of the second outer loop, montgomery_impl.rs:464-495. *)
Definition mg_redc_step (n : mp) (n0_val neg_n0_inv_mod_l : Z) (st : mp * Z * Z) : M (mp * Z * Z) :=
  let '(result, result_carry, result_high_shadow) := st in
  let n_nlimbs := nlimbs n in
  let! result_val := mg_acc result (n_nlimbs =? 1) 0 result_high_shadow in
  let! k := redc_start W result_val n0_val neg_n0_inv_mod_l in
  let! '(result, k) := zfor 0 (n_nlimbs - 1) (fun j '(result, k) =>
    let! l := usub n_nlimbs 1 in
    let! result_val := mg_acc result (j + 1 =? l) (j + 1) result_high_shadow in
    let! n_val := load_l n (j + 1) in
    let! '(k, result_val) := redc_update k result_val n_val in
    let! result := store_l_full result j result_val in
    ret (result, k)) (result, k) in
  let j := Z.max 0 (n_nlimbs - 1) in
  dassert (j + 1 =? n_nlimbs) ;;
  let! '(result_carry, result_high_shadow) := redc_finish k result_carry in
  dassert (result_carry <=? 1) ;;
  ret (result, result_carry, result_high_shadow).

(** ct_montgomery_mul_mod_mp_mp, montgomery_impl.rs:343-510 *)
Definition ct_montgomery_mul_mod_mp_mp (result op0 op1 n : mp) (neg_n0_inv_mod_l : Z) : M (Monad.result unit mg_err * mp) :=
  mif mp_is_empty n then ret (Err MgInvalidModulus, result) else
  let! n0_val := load_l n 0 in
  let! even := ct_eq_l_l (Z.land n0_val 1) 0 in
  mif negb (lc_unwrap even =? 0) then ret (Err MgInvalidModulus, result) else
  let! compat := len_is_compatible_with n (mp_len result) in
  mif negb compat then ret (Err MgInsufficientResultSpace, result) else
  dassert (nlimbs n <=? nlimbs result) ;;
  let! compat0 := len_is_compatible_with op0 (mp_len n) in
  let! bad := (mif negb compat0 then ret true else
               let! compat1 := len_is_compatible_with op1 (mp_len n) in ret (negb compat1)) in
  mif bad then ret (Err MgInconsistentOperandLengths, result) else
  dassert (nlimbs op0 <=? nlimbs n) ;;
  dassert_lt op0 n ;;
  dassert (nlimbs op1 <=? nlimbs n) ;;
  dassert_lt op1 n ;;
  let op0_nlimbs := nlimbs op0 in
  let n_nlimbs := nlimbs n in
  dassert (lwmul n0_val neg_n0_inv_mod_l =? lnot 0) ;;
  let! result_full := clear_bytes_above result 0 in
  let! result := mp_shrink_to result_full (mp_len n) in
  dassert (nlimbs result =? nlimbs n) ;;
  let! '(result, result_carry, result_high_shadow) :=
    zfor 0 op0_nlimbs (mg_mul_step op0 op1 n n0_val neg_n0_inv_mod_l) (result, 0, 0) in
  let! '(result, result_carry, result_high_shadow) :=
    zfor op0_nlimbs (ct_montgomery_radix_shift_mp_nlimbs (mp_len n))
      (fun _ => mg_redc_step n n0_val neg_n0_inv_mod_l) (result, result_carry, result_high_shadow) in
  dassert (nlimbs result =? nlimbs n) ;;
  let! result := mg_finish result n n n_nlimbs result_carry result_high_shadow in
  ret (Ok tt, mp_unshrink result_full result).

(** ct_to_montgomery_form_direct_mp, montgomery_impl.rs:686-714 *)
Definition ct_to_montgomery_form_direct_mp (t n : mp) : M (result unit mg_err * mp) :=
  let! odd := test_bit n 0 in
  mif (lc_unwrap odd =? 0) then ret (Err MgInvalidModulus, t) else
  let! compat := len_is_compatible_with n (mp_len t) in
  mif negb compat then ret (Err MgInsufficientResultSpace, t) else
  dassert (nlimbs n <=? nlimbs t) ;;
  let radix_shift_len := ct_montgomery_radix_shift_len (mp_len n) in
  let! d := mp_divisor_new n None in
  match d with
  | Err DivisorIsZero => dassert false ;; ret (Err MgInvalidModulus, t)
  | Ok d =>
    let! '(r, t) := ct_mod_lshifted_mp_mp t (mp_len t) radix_shift_len d in
    match r with
    | Err _ => dassert false ;; ret (Err MgInsufficientResultSpace, t)
    | Ok _ => ret (Ok tt, t)
    end
  end.

(** ct_montgomery_radix2_mod_n_mp, montgomery_impl.rs:716-750. The product 2 * 8 * radix_shift_len is exact here; it could
    overflow only for moduli within LB of 2^(usize bits - 4) bytes, which the theorems exclude. *)
Definition ct_montgomery_radix2_mod_n_mp (radix2_mod_n_out n : mp) : M (result unit mg_err * mp) :=
  let! odd := test_bit n 0 in
  mif (lc_unwrap odd =? 0) then ret (Err MgInvalidModulus, radix2_mod_n_out) else
  let! compat := len_is_compatible_with n (mp_len radix2_mod_n_out) in
  mif negb compat then ret (Err MgInsufficientResultSpace, radix2_mod_n_out) else
  let! full := clear_bytes_above radix2_mod_n_out (mp_len n) in
  let! out := mp_shrink_to full (mp_len n) in
  dassert (nlimbs out =? nlimbs n) ;;
  let radix_shift_len := ct_montgomery_radix_shift_len (mp_len n) in
  let! d := mp_divisor_new n None in
  match d with
  | Err DivisorIsZero => dassert false ;; ret (Err MgInvalidModulus, mp_unshrink full out)
  | Ok d =>
    let! '(r, out) := ct_mod_pow2_mp (2 * 8 * radix_shift_len) out d in
    match r with
    | Err _ => dassert false ;; ret (Err MgInsufficientResultSpace, mp_unshrink full out)
    | Ok _ => ret (Ok tt, mp_unshrink full out)
    end
  end.

(** ct_to_montgomery_form_mp, montgomery_impl.rs:760-801 *)
Definition ct_to_montgomery_form_mp (result t n : mp) (neg_n0_inv_mod_l : Z) (radix2_mod_n : mp) : M (Monad.result unit mg_err * mp) :=
  let! compat := len_is_compatible_with t (mp_len n) in
  mif negb compat then ret (Err MgInconsistentOperandLengths, result) else
  let! compat := len_is_compatible_with radix2_mod_n (mp_len n) in
  mif negb compat then ret (Err MgInconsistentRadixLength, result) else
  dassert_lt t n ;;
  dassert_lt radix2_mod_n n ;;
  ct_montgomery_mul_mod_mp_mp result t radix2_mod_n n neg_n0_inv_mod_l.

(** [.unwrap()] of a result, montgomery_impl.rs:925-926. *)
Definition unwrap {A E T} (r : result A E * T) : M T :=
  match r with (Ok _, t) => ret t | (Err _, _) => panic end.

(** _ct_montogmery_exp_mod_mp_mp, montgomery_impl.rs:899-930; [scratch] is the slice of limbs. *)
Definition mg_exp_loop (result op0 n : mp) (neg_n0_inv_mod_l : Z) (exponent : mp) (exponent_nbits : Z) (scratch : list Z) : M (mp * list Z) :=
  dassert (nlimbs result =? nlimbs n) ;;
  let n_nlimbs := ct_mp_nlimbs (mp_len n) in
  dassert (n_nlimbs <=? zlen scratch) ;;
  let! scratch_full := clear_bytes_above (NE scratch) (mp_len n) in
  let! scratch := mp_shrink_to scratch_full (mp_len n) in
  let exponent_nbits := Z.min exponent_nbits (8 * mp_len exponent) in
  let! '(result, scratch) := zfor 0 exponent_nbits (fun i '(result, scratch) =>
    let! r := ct_montgomery_mul_mod_mp_mp scratch result result n neg_n0_inv_mod_l in
    let! scratch := unwrap r in
    let! r := ct_montgomery_mul_mod_mp_mp result scratch op0 n neg_n0_inv_mod_l in
    let! result := unwrap r in
    let! bit := test_bit exponent (exponent_nbits - i - 1) in
    let! result := copy_from_cond result scratch (lc_not bit) in
    ret (result, scratch)) (result, scratch) in
  match mp_unshrink scratch_full scratch with
  | NE l => ret (result, l)
  | _ => panic
  end.

(** ct_montogmery_exp_mod_odd_mp_mp, montgomery_impl.rs:942-992 *)
Definition ct_montgomery_exp_mod_odd_mp_mp (result op0 n : mp) (neg_n0_inv_mod_l : Z) (radix_mod_n exponent : mp) (exponent_nbits : Z) (scratch : list Z) :
    M (Monad.result unit mg_err * mp * list Z) :=
  let! odd := test_bit n 0 in
  mif (lc_unwrap odd =? 0) then ret (Err MgInvalidModulus, result, scratch) else
  let! compat := len_is_compatible_with n (mp_len result) in
  mif negb compat then ret (Err MgInsufficientResultSpace, result, scratch) else
  mif (zlen scratch <? ct_mp_nlimbs (mp_len n)) then ret (Err MgInsufficientScratchSpace, result, scratch) else
  let! compat := len_is_compatible_with op0 (mp_len n) in
  mif negb compat then ret (Err MgInconsistentOperandLengths, result, scratch) else
  dassert_lt op0 n ;;
  let! compat := len_is_compatible_with radix_mod_n (mp_len n) in
  mif negb compat then ret (Err MgInconsistentRadixLength, result, scratch) else
  dassert_lt radix_mod_n n ;;
  let! result_full := clear_bytes_above result (mp_len n) in
  let! result := mp_shrink_to result_full (mp_len n) in
  dassert (nlimbs result =? nlimbs n) ;;
  let! result := copy_from result radix_mod_n in
  let! '(result, scratch) := mg_exp_loop result op0 n neg_n0_inv_mod_l exponent exponent_nbits scratch in
  ret (Ok tt, mp_unshrink result_full result, scratch).

(** ct_exp_mod_odd_mp_mp, montgomery_impl.rs:1002-1074.  Returns result, op0 and scratch. *)
Definition ct_exp_mod_odd_mp_mp (result op0 n exponent : mp) (exponent_nbits : Z) (scratch : list Z) :
    M (Monad.result unit mg_err * mp * mp * list Z) :=
  let! compat := len_is_compatible_with n (mp_len result) in
  mif negb compat then ret (Err MgInsufficientResultSpace, result, op0, scratch) else
  let! compat := len_is_compatible_with op0 (mp_len n) in
  mif negb compat then ret (Err MgInconsistentOperandLengths, result, op0, scratch) else
  dassert_lt op0 n ;;
  let! compat := len_is_compatible_with n (mp_len op0) in
  mif negb compat then ret (Err MgInconsistentOperandLengths, result, op0, scratch) else
  dassert (nlimbs op0 =? nlimbs n) ;;
  mif (zlen scratch <? ct_mp_nlimbs (mp_len n)) then ret (Err MgInsufficientScratchSpace, result, op0, scratch) else
  let! neg := ct_montgomery_neg_n0_inv_mod_l_mp n in
  match neg with
  | Err e => ret (Err e, result, op0, scratch)
  | Ok neg_n0_inv_mod_l =>
    let! result_full := clear_bytes_above result (mp_len n) in
    let! result := mp_shrink_to result_full (mp_len n) in
    dassert (nlimbs result =? nlimbs n) ;;
    let! r := ct_montgomery_radix2_mod_n_mp result n in
    let! result := unwrap r in
    let! scratch_full := clear_bytes_above (NE scratch) (mp_len n) in
    let! mg_op0 := mp_shrink_to scratch_full (mp_len n) in
    let! r := ct_to_montgomery_form_mp mg_op0 op0 n neg_n0_inv_mod_l result in
    let! mg_op0 := unwrap r in
    let! op0 := copy_from op0 mg_op0 in
    match mp_unshrink scratch_full mg_op0 with
    | NE scratch =>
      let! r := ct_montgomery_redc_mp result n neg_n0_inv_mod_l in
      let! result := unwrap r in
      let! '(result, scratch) := mg_exp_loop result op0 n neg_n0_inv_mod_l exponent exponent_nbits scratch in
      let! r := ct_montgomery_redc_mp result n neg_n0_inv_mod_l in
      let! result := unwrap r in
      ret (Ok tt, mp_unshrink result_full result, op0, scratch)
    | _ => panic
    end
  end.

End Model.
