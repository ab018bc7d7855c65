(** Model of src/lcm_impl.rs.  Each [&mut] argument is returned updated. *)
From Coq Require Import ZArith List Bool.
Require Import Verif.Spec Verif.Monad Verif.ModelLimb Verif.ModelBuf Verif.ModelCmp Verif.ModelShift Verif.ModelMul Verif.ModelDiv Verif.ModelEuclid.
Import ListNotations.
Open Scope Z_scope.

(** CtLcmMpMpError, lcm_impl.rs:16-21 *)
Inductive lcm_err := LcmInsufficientResultSpace | LcmInsufficientScratchSpace | LcmInconsistentOperandLengths.

Section Model.
Context {c : cfg}.

(** Number of elements of the slice backing a buffer, as in lcm_impl.rs:58. *)
Definition backing_len (b : mp) : Z := match b with BE l | LE l | NE l => zlen l end.

(** Extraction of the high part of the product into op1, lcm_impl.rs:91-113: from the debug_assert! on the number of
    limbs to the one on the last value. *)
Definition lcm_prod_high (prod high : mp) (gcd_max_len : Z) : M mp :=
  let gcd_max_nlimbs := ct_mp_nlimbs gcd_max_len in
  dassert (gcd_max_nlimbs <=? nlimbs high) ;;
  let! src_begin := usub (mp_len prod) gcd_max_len in
  let src_low_rshift := 8 * (src_begin mod LB) in
  let! d := sub32 W src_low_rshift in
  let dst_high_lshift := d mod W in
  let! src_high_mask := ct_lsb_mask_l src_low_rshift in
  let src_begin_limb_index := src_begin / LB in
  dassert (src_begin_limb_index + gcd_max_nlimbs <=? nlimbs prod) ;;
  let! v := load_l prod src_begin_limb_index in
  let! '(high, last_src_val) := zfor 0 gcd_max_nlimbs (fun i '(high, last_src_val) =>
    let src_limb_index := src_begin_limb_index + i + 1 in
    let! next_src_val := (mif (src_limb_index <? nlimbs prod) then load_l prod src_limb_index else ret 0) in
    let! dst_low := lshr last_src_val src_low_rshift in
    let! dst_high := lshl (Z.land next_src_val src_high_mask) dst_high_lshift in
    let! high := store_l high i (Z.lor dst_high dst_low) in
    ret (high, next_src_val)) (high, v) in
  dassert_m (let! x := lshr last_src_val src_low_rshift in ret (x =? 0)) ;;
  ret high.

(** ct_lcm_mp_mp, lcm_impl.rs:23-133.  [scratch] is the scratch slice as from_slice() interprets it, of the kind of op1.
    Returns result, op0, op1 and scratch. *)
Definition ct_lcm_mp_mp (result_ op0 : mp) (op0_len : Z) (op1 : mp) (op1_len : Z) (scratch : mp) :
    M (result unit lcm_err * mp * mp * mp * mp) :=
  let op0_len := Z.min op0_len (mp_len op0) in
  let op1_len := Z.min op1_len (mp_len op1) in
  mif ((op0_len =? 0) || (op1_len =? 0)) then
    let! result_ := clear_bytes_above result_ 0 in
    ret (Ok tt, result_, op0, op1, scratch)
  else
  let! c0 := len_is_compatible_with op0 (mp_len op1) in
  let! bad := (mif negb c0 then ret true else
               let! c1 := len_is_compatible_with op1 (mp_len op0) in ret (negb c1)) in
  mif bad then ret (Err LcmInconsistentOperandLengths, result_, op0, op1, scratch) else
  dassert (mp_len op0 =? mp_len op1) ;;
  mif (mp_len result_ <? op0_len + op1_len) then ret (Err LcmInsufficientResultSpace, result_, op0, op1, scratch) else
  let prod_len := op0_len + op1_len in
  mif (backing_len scratch <? n_backing_elements_for_len op1 prod_len) then
    ret (Err LcmInsufficientScratchSpace, result_, op0, op1, scratch)
  else
  let! '(_, prod) := mp_take scratch prod_len in
  let! prod := copy_from prod op0 in
  let! op1_low := mp_shrink_to op1 op1_len in
  let! prod := ct_mul_trunc_mp_mp prod op0_len op1_low in
  let! '(r, gcd, op1) := ct_gcd_mp_mp op0 op1 in
  match r with
  | Err _ => panic
  | Ok _ =>
    dassert_m (let! z := ct_is_zero_mp gcd in ret (lc_unwrap z =? 0)) ;;
    let! '(_, gcd_width) := ct_find_last_set_bit_mp gcd in
    let gcd_max_len := Z.max op0_len op1_len in
    let! scaling_shift := usub (8 * gcd_max_len) gcd_width in
    let! '(gcd, _) := ct_lshift_mp gcd scaling_shift in
    let! high := lcm_prod_high prod op1 gcd_max_len in
    let! high := clear_bytes_above high gcd_max_len in
    let! d := usub (8 * gcd_max_len) scaling_shift in
    let! '(high_full, _) := ct_rshift_mp high d in
    let! high := mp_shrink_to high_full gcd_max_len in
    let! '(low, _) := ct_lshift_mp prod scaling_shift in
    let! dv := mp_divisor_new gcd None in
    match dv with
    | Err _ => panic
    | Ok dv =>
      let! '(r, high, low, result_) := ct_div_mp_mp (Some high) low dv (Some result_) in
      match r, high, result_ with
      | Ok _, Some high, Some result_ =>
        dassert_m (let! z := ct_is_zero_mp low in ret (negb (lc_unwrap z =? 0))) ;;
        dassert_m (let! z := ct_is_zero_mp high in ret (negb (lc_unwrap z =? 0))) ;;
        ret (Ok tt, result_, gcd, mp_unshrink high_full high, mp_unshrink scratch low)
      | _, _, _ => panic
      end
    end
  end.

End Model.
