(** Model of shift_impl.rs.  [op0 : &mut] is returned first. *)
From Coq Require Import ZArith List Bool.
Require Import Verif.Monad Verif.ModelLimb Verif.ModelBuf.
Import ListNotations.
Open Scope Z_scope.

Section Model.
Context {c : cfg}.

(** usize::wrapping_sub, shift_impl.rs:30,36,52,67,296,317,333 *)
Definition uwsub (a b : Z) : Z := (a - b) mod 2 ^ UW.

(** The statement storing a limb of [op0], masking off what does not fit a
    partial high limb: shift_impl.rs:111-115, 373-377. *)
Definition store_trunc (op0 : mp) (i v : Z) : M mp :=
  mif negb (i + 1 =? nlimbs op0) then store_l_full op0 i v
  else let! m := partial_high_mask op0 in store_l op0 i (Z.land v m).

(** The block computing the limb shifted out by ct_lshift_mp,
    shift_impl.rs:24-70.  The [as usize] conversions of LIMB_BITS are identities;
    the [/] and [%] by the constant LIMB_BITS are shifts and masks in the compiled
    code and emit no event. *)
Definition lshift_out (op0 : mp) (distance : Z) : M Z :=
  let op0_nlimbs := nlimbs op0 in
  let op0_nbits := 8 * mp_len op0 in
  let! src_bits_begin_lt_0 := ct_lt_usize_usize op0_nbits distance in
  let src_bits_begin := uwsub op0_nbits distance in
  let src_bits_begin := lc_select_usize src_bits_begin_lt_0 src_bits_begin 0 in
  let! src_bits_begin_ge_op0_nbits := ct_geq_usize_usize src_bits_begin op0_nbits in
  let src_bits_begin := lc_select_usize src_bits_begin_ge_op0_nbits src_bits_begin op0_nbits in
  let! src_bits_end_le_0 := ct_leq_usize_usize (op0_nbits + W) distance in
  let src_bits_end := uwsub (op0_nbits + W) distance in
  let src_bits_end := lc_select_usize src_bits_end_le_0 src_bits_end 0 in
  let! src_bits_end_gt_op0_nbits := ct_gt_usize_usize src_bits_end (op0_nlimbs * W) in
  let src_bits_end := lc_select_usize src_bits_end_gt_op0_nbits src_bits_end op0_nbits in
  let! last := usub op0_nlimbs 1 in
  let low_src_limb_index := lc_select_usize src_bits_begin_ge_op0_nbits (src_bits_begin / W) last in
  let low_src_rshift := src_bits_begin mod W in
  let high_src_limb_index := lc_select_usize src_bits_end_le_0 (uwsub src_bits_end 1 / W) 0 in
  let dst_high_lshift := (W - low_src_rshift) mod W in
  let! lsb_mask := ct_lsb_mask_l low_src_rshift in
  let high_src_mask := lc_select src_bits_end_gt_op0_nbits lsb_mask 0 in
  let! src_low := load_l op0 low_src_limb_index in
  let! src_low := lshr src_low low_src_rshift in
  let! src_high := load_l op0 high_src_limb_index in
  let src_high := Z.land src_high high_src_mask in
  let! t := lshl src_high dst_high_lshift in
  let shifted_out_low :=
    lc_select (lc_or src_bits_end_le_0 src_bits_begin_ge_op0_nbits) (Z.lor t src_low) 0 in
  let result_lshift := lc_select_usize src_bits_begin_lt_0 0 (uwsub distance op0_nbits) in
  let result_lshift := lc_select_usize src_bits_end_le_0 result_lshift 0 in
  lshl shifted_out_low result_lshift.

(** ct_lshift_mp, shift_impl.rs:15-123 *)
Definition ct_lshift_mp (op0 : mp) (distance : Z) : M (mp * Z) :=
  mif mp_is_empty op0 then ret (op0, 0) else
  let op0_nlimbs := nlimbs op0 in
  let op0_nbits := 8 * mp_len op0 in
  let! shifted_out_low := lshift_out op0 distance in
  let! gt := ct_gt_usize_usize distance op0_nbits in
  let distance := lc_select_usize gt distance op0_nbits in
  let distance_nlimbs := ct_mp_nlimbs ((distance + 7) / 8) in
  let dst_high_lshift := distance mod W in
  let! distance_is_aligned := ct_eq_usize_usize dst_high_lshift 0 in
  let low_src_rshift := lc_select_usize distance_is_aligned (W - dst_high_lshift) 0 in
  let high_src_mask := lc_select distance_is_aligned (lnot 0) 0 in
  dassert (distance_nlimbs <=? op0_nlimbs) ;;
  let! dn0 := ct_eq_usize_usize distance_nlimbs 0 in
  let! k := usub op0_nlimbs (lc_select_usize dn0 distance_nlimbs 1) in
  let! last_src_low := load_l op0 k in
  let! '(op0, _, _) := zfor_down 0 op0_nlimbs (fun i '(op0, src_limb_index_offset, last_src_low) =>
    let! e := ct_eq_usize_usize distance_nlimbs (i + 1) in
    let src_limb_index_offset := lc_select_usize e src_limb_index_offset op0_nlimbs in
    let src_high := last_src_low in
    let! low_src_limb_index := usub (i + src_limb_index_offset) distance_nlimbs in
    let! src_low := load_l op0 low_src_limb_index in
    let! dst_low := lshr src_low low_src_rshift in
    let! dst_high := lshl (Z.land src_high high_src_mask) dst_high_lshift in
    let! op0 := store_trunc op0 i (Z.lor dst_high dst_low) in
    ret (op0, src_limb_index_offset, src_low)) (op0, 0, last_src_low) in
  let! op0 := ct_clear_bits_below_mp op0 distance in
  ret (op0, shifted_out_low).

(** The block computing the limb shifted out by ct_rshift_mp,
    shift_impl.rs:294-336 *)
Definition rshift_out (op0 : mp) (distance : Z) : M Z :=
  let op0_nlimbs := nlimbs op0 in
  let op0_nbits := 8 * mp_len op0 in
  let! src_bits_begin_lt_0 := ct_lt_usize_usize distance W in
  let src_bits_begin := uwsub distance W in
  let src_bits_begin := lc_select_usize src_bits_begin_lt_0 src_bits_begin 0 in
  let! src_bits_begin_ge_op0_nbits := ct_geq_usize_usize src_bits_begin op0_nbits in
  let src_bits_begin := lc_select_usize src_bits_begin_ge_op0_nbits src_bits_begin op0_nbits in
  let src_bits_end := distance in
  let! src_bits_end_gt_op0_nbits := ct_gt_usize_usize src_bits_end (op0_nlimbs * W) in
  let src_bits_end := lc_select_usize src_bits_end_gt_op0_nbits src_bits_end op0_nbits in
  let! src_bits_end_eq_0 := ct_eq_usize_usize 0 distance in
  let! last := usub op0_nlimbs 1 in
  let low_src_limb_index := lc_select_usize src_bits_begin_ge_op0_nbits (src_bits_begin / W) last in
  let low_src_rshift := src_bits_begin mod W in
  let high_src_limb_index := lc_select_usize src_bits_end_eq_0 (uwsub src_bits_end 1 / W) 0 in
  let dst_high_lshift := (W - low_src_rshift) mod W in
  let! lsb_mask := ct_lsb_mask_l low_src_rshift in
  let high_src_mask := lc_select src_bits_end_gt_op0_nbits lsb_mask 0 in
  let! src_low := load_l op0 low_src_limb_index in
  let! src_low := lshr src_low low_src_rshift in
  let! src_high := load_l op0 high_src_limb_index in
  let src_high := Z.land src_high high_src_mask in
  let! t := lshl src_high dst_high_lshift in
  let shifted_out_high :=
    lc_select (lc_or src_bits_end_eq_0 src_bits_begin_ge_op0_nbits) (Z.lor t src_low) 0 in
  let result_lshift := lc_select_usize src_bits_begin_lt_0 0 (uwsub W distance) in
  let result_lshift := lc_select_usize src_bits_end_eq_0 result_lshift 0 in
  lshl shifted_out_high result_lshift.

(** ct_rshift_mp, shift_impl.rs:285-386 *)
Definition ct_rshift_mp (op0 : mp) (distance : Z) : M (mp * Z) :=
  mif mp_is_empty op0 then ret (op0, 0) else
  let op0_nlimbs := nlimbs op0 in
  let op0_nbits := 8 * mp_len op0 in
  let! shifted_out_high := rshift_out op0 distance in
  let! gt := ct_gt_usize_usize distance op0_nbits in
  let distance := lc_select_usize gt distance op0_nbits in
  let distance_nlimbs := distance / W in
  let low_src_rshift := distance mod W in
  let! distance_is_aligned := ct_eq_usize_usize low_src_rshift 0 in
  let dst_high_lshift := lc_select_usize distance_is_aligned (W - low_src_rshift) 0 in
  let high_src_mask := lc_select distance_is_aligned (lnot 0) 0 in
  let! ge := ct_geq_usize_usize distance_nlimbs op0_nlimbs in
  let src_limb_index_offset := lc_select_usize ge 0 op0_nlimbs in
  let! k := usub distance_nlimbs src_limb_index_offset in
  let! last_src_high := load_l op0 k in
  let! '(op0, _, _) := zfor 0 op0_nlimbs (fun i '(op0, src_limb_index_offset, last_src_high) =>
    let src_low := last_src_high in
    let high_src_limb_index := i + distance_nlimbs + 1 in
    let! d := usub high_src_limb_index src_limb_index_offset in
    let! e := ct_eq_usize_usize d op0_nlimbs in
    let src_limb_index_offset :=
      lc_select_usize e src_limb_index_offset (src_limb_index_offset + op0_nlimbs) in
    let! high_src_limb_index := usub high_src_limb_index src_limb_index_offset in
    let! src_high := load_l op0 high_src_limb_index in
    let! dst_low := lshr src_low low_src_rshift in
    let! dst_high := lshl (Z.land src_high high_src_mask) dst_high_lshift in
    let! op0 := store_trunc op0 i (Z.lor dst_high dst_low) in
    ret (op0, src_limb_index_offset, src_high)) (op0, src_limb_index_offset, last_src_high) in
  let! k := usub op0_nbits distance in
  let! op0 := ct_clear_bits_above_mp op0 k in
  ret (op0, shifted_out_high).

End Model.
