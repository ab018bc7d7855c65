(** Model of src/invmod_impl.rs.  Each [&mut] argument is returned updated. *)
From Coq Require Import ZArith List Bool.
Require Import Verif.Spec Verif.Monad Verif.ModelLimb Verif.ModelBuf Verif.ModelCmp Verif.ModelAdd Verif.ModelShift Verif.ModelMul Verif.ModelEuclid.
Import ListNotations.
Open Scope Z_scope.

(** CtInvModMpMpError, invmod_impl.rs:216-222 *)
Inductive invmod_err := ImInvalidModulus | ImInsufficientResultSpace | ImInsufficientScratchSpace | ImInconsistentOperandLengths | ImOperandsNotCoprime.

Section Model.
Context {c : cfg}.

(** Subtraction of [tmp] from the doubled result in the low [n] limbs, invmod_impl.rs:72-86. *)
Definition inv_pow2_double_sub (result tmp : mp) (n : Z) : M mp :=
  let! '(result, _, _) := zfor 0 n (fun j '(result, carry, borrow) =>
    let! result_val := load_l result j in
    let! tmp_val := load_l tmp j in
    let! s := sub32 W 1 in
    let! result_msb := lshr result_val s in
    let! x := lshl result_val 1 in
    let! result_val := ladd x carry in
    let carry := result_msb in
    let! '(borrow, result_val) := ct_sub_l_l_b result_val tmp_val borrow in
    let! result := store_high_masked result j result_val in
    ret (result, carry, borrow)) (result, 0, 0) in
  ret result.

(** One lifting step, invmod_impl.rs:59-91. *)
Definition inv_pow2_step (result tmp op0 : mp) (cur_pow2_exp max_pow2_exp_len : Z) : M (mp * mp * Z) :=
  let! tmp := copy_from tmp result in
  let cur_result_len := (cur_pow2_exp + 7) / 8 in
  let! tmp := ct_square_trunc_mp tmp cur_result_len in
  let cur_result_len := Z.min (2 * cur_result_len) max_pow2_exp_len in
  let! tmp := ct_mul_trunc_mp_mp tmp cur_result_len op0 in
  let! result := inv_pow2_double_sub result tmp (ct_mp_nlimbs cur_result_len) in
  let cur_pow2_exp := cur_pow2_exp * 2 in
  let! result := clear_bits_above_mp result cur_pow2_exp in
  ret (result, tmp, cur_pow2_exp).

(** The loop, invmod_impl.rs:57-92.  [fuel] bounds the number of iterations; running out of it counts as a panic, so that a
    theorem excluding panics shows it to suffice. *)
Fixpoint inv_pow2_loop (fuel : nat) (result tmp op0 : mp) (cur_pow2_exp max_pow2_exp max_pow2_exp_len : Z) : M (mp * mp) :=
  mif (cur_pow2_exp <? max_pow2_exp) then
    match fuel with
    | O => panic
    | S fuel =>
      let! '(result, tmp, cur_pow2_exp) := inv_pow2_step result tmp op0 cur_pow2_exp max_pow2_exp_len in
      inv_pow2_loop fuel result tmp op0 cur_pow2_exp max_pow2_exp max_pow2_exp_len
    end
  else ret (result, tmp).

(** ct_inv_mod_pow2_mp, invmod_impl.rs:20-98.  Returns result and the scratch slice. *)
Definition ct_inv_mod_pow2_mp (result op0 : mp) (pow2_exp max_pow2_exp : Z) (scratch : list Z) : M (mp * list Z) :=
  dassert (negb (mp_is_empty op0)) ;;
  dassert_m (mif (pow2_exp =? 0) then ret true else let! v := load_l op0 0 in ret (Z.land v 1 =? 1)) ;;
  dassert (negb (max_pow2_exp =? 0)) ;;
  dassert (pow2_exp <=? max_pow2_exp) ;;
  let max_pow2_exp_len := (max_pow2_exp + 7) / 8 in
  dassert (max_pow2_exp_len <=? mp_len result) ;;
  dassert (ct_mp_nlimbs max_pow2_exp_len <=? zlen scratch) ;;
  let! result_full := clear_bytes_above result max_pow2_exp_len in
  let! result := mp_shrink_to result_full max_pow2_exp_len in
  let! tmp_full := clear_bytes_above (NE scratch) max_pow2_exp_len in
  let! tmp := mp_shrink_to tmp_full max_pow2_exp_len in
  let! result := clear_bytes_below result max_pow2_exp_len in
  let! result := store_l result 0 1 in
  let! '(result, tmp) := inv_pow2_loop (Z.to_nat (Z.log2_up max_pow2_exp)) result tmp op0 1 max_pow2_exp max_pow2_exp_len in
  let! result := ct_clear_bits_above_mp result pow2_exp in
  dassert_m (mif negb (pow2_exp =? 0) then ret true else let! z := ct_is_zero_mp result in ret (lc_unwrap z =? 1)) ;;
  let! scratch := limbs_of (mp_unshrink tmp_full tmp) in
  ret (mp_unshrink result_full result, scratch).

(** The four scratch slices of ct_inv_mod_mp_mp, invmod_impl.rs:229. *)
Definition scratch4 : Type := list Z * list Z * list Z * list Z.

(** ct_inv_mod_mp_mp, invmod_impl.rs:226-362.  The scratch slices, whose contents on return are unspecified, are not returned. *)
Definition ct_inv_mod_mp_mp (op0 n : mp) (scratch : scratch4) : M (result unit invmod_err * mp * mp) :=
  let '(s0, s1, s2, s3) := scratch in
  mif (mp_is_empty n) then ret (Err ImInvalidModulus, op0, n) else
  let! c0 := len_is_compatible_with n (mp_len op0) in
  mif negb c0 then ret (Err ImInsufficientResultSpace, op0, n) else
  let! c1 := len_is_compatible_with op0 (mp_len n) in
  mif negb c1 then ret (Err ImInconsistentOperandLengths, op0, n) else
  let! v0 := load_l op0 0 in
  let! v1 := load_l n 0 in
  let! nz := ct_is_nonzero_l (Z.land (Z.land (lnot v0) (lnot v1)) 1) in
  mif negb (nz =? 0) then ret (Err ImOperandsNotCoprime, op0, n) else
  let n_nlimbs := ct_mp_nlimbs (mp_len n) in
  mif (zlen s0 <? n_nlimbs) then ret (Err ImInsufficientScratchSpace, op0, n) else
  mif (zlen s1 <? n_nlimbs) then ret (Err ImInsufficientScratchSpace, op0, n) else
  mif (zlen s2 <? n_nlimbs) then ret (Err ImInsufficientScratchSpace, op0, n) else
  mif (zlen s3 <? n_nlimbs) then ret (Err ImInsufficientScratchSpace, op0, n) else
  let! scratch0 := clear_bytes_above (NE s0) (mp_len n) in
  let! scratch0 := mp_shrink_to scratch0 (mp_len n) in
  let! scratch1 := clear_bytes_above (NE s1) (mp_len n) in
  let! scratch1 := mp_shrink_to scratch1 (mp_len n) in
  let! '(n_is_nonzero, n_pow2_exp) := ct_find_first_set_bit_mp n in
  mif (lc_unwrap n_is_nonzero =? 0) then ret (Err ImInvalidModulus, op0, n) else
  assert (negb (lc_unwrap n_is_nonzero =? 0)) ;;
  let! '(n, _) := ct_rshift_mp n n_pow2_exp in
  let! max_n_pow2_exp := usub (8 * mp_len n) 1 in
  let! '(scratch0, s2) := ct_inv_mod_pow2_mp scratch0 op0 n_pow2_exp max_n_pow2_exp s2 in
  let! '(r, scratch1, op0, s2, _) := ct_inv_mod_odd_mp_mp_impl scratch1 op0 n s2 s3 in
  match r with
  | Err e =>
    let! '(n, _) := ct_lshift_mp n n_pow2_exp in
    match e with
    | InvInvalidModulus => dassert false ;; ret (Err ImInvalidModulus, op0, n)
    | InvOperandsNotCoprime => ret (Err ImOperandsNotCoprime, op0, n)
    | InvInsufficientResultSpace => dassert false ;; ret (Err ImInsufficientScratchSpace, op0, n)
    | InvInsufficientScratchSpace => dassert false ;; ret (Err ImInsufficientScratchSpace, op0, n)
    | InvInconsistentOperandLengths => ret (Err ImInconsistentOperandLengths, op0, n)
    end
  | Ok _ =>
    let! op0 := copy_from op0 scratch1 in
    let! '(scratch0, _) := ct_sub_mp_mp scratch0 scratch1 in
    let! '(scratch1, s2) := ct_inv_mod_pow2_mp scratch1 n n_pow2_exp max_n_pow2_exp s2 in
    let! scratch0 := ct_mul_trunc_mp_mp scratch0 (mp_len n) scratch1 in
    let! scratch0 := ct_clear_bits_above_mp scratch0 n_pow2_exp in
    let! scratch0 := ct_mul_trunc_mp_mp scratch0 (mp_len n) n in
    let! '(op0, carry) := ct_add_mp_mp op0 scratch0 in
    assert (carry =? 0) ;;
    let! '(n, _) := ct_lshift_mp n n_pow2_exp in
    let! lt := ct_lt_mp_mp op0 n in
    assert (negb (lc_unwrap lt =? 0)) ;;
    let! z := ct_is_zero_mp op0 in
    mif negb (lc_unwrap z =? 0) then ret (Err ImOperandsNotCoprime, op0, n) else
    ret (Ok tt, op0, n)
  end.

End Model.
