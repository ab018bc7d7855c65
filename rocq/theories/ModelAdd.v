(** Model of add_impl.rs: multiprecision addition, subtraction, negation, also
    modular.  Functions taking [op0 : &mut] return the new [op0] first. *)
From Coq Require Import ZArith List Bool.
Require Import Verif.Monad Verif.ModelLimb Verif.ModelBuf Verif.ModelCmp.
Import ListNotations.
Open Scope Z_scope.

Section Model.
Context {c : cfg}.

(** ct_add_cond_mp_mp, add_impl.rs:32-71 *)
Definition ct_add_cond_mp_mp (op0 op1 : mp) (cond : Z) : M (mp * Z) :=
  let op0_nlimbs := nlimbs op0 in
  let op1_nlimbs := nlimbs op1 in
  dassert (op1_nlimbs <=? op0_nlimbs) ;;
  mif (op1_nlimbs =? 0) then ret (op0, 0) else
  let! '(op0, carry) := zfor 0 (op1_nlimbs - 1) (fun i '(op0, carry) =>
    let! op0_val := load_l_full op0 i in
    let! op1_val := load_l_full op1 i in
    let op1_val := lc_select cond 0 op1_val in
    let! '(carry, op0_val) := ct_add_l_l_c op0_val op1_val carry in
    let! op0 := store_l_full op0 i op0_val in
    ret (op0, carry)) (op0, 0) in
  let! op1_val := load_l op1 (op1_nlimbs - 1) in
  let op1_val := lc_select cond 0 op1_val in
  let! '(op0, carry, _) := zfor (op1_nlimbs - 1) op0_nlimbs (fun i '(op0, carry, op1_val) =>
    let! op0_val := load_l op0 i in
    let! '(carry, op0_val) := ct_add_l_l_c op0_val op1_val carry in
    mif (negb (i =? op0_nlimbs - 1) || negb (supports_unaligned op0)) then
      let! op0 := store_l_full op0 i op0_val in
      ret (op0, carry, 0)
    else
      let! op0_high_mask := partial_high_mask op0 in
      let op0_high_shift := partial_high_shift op0 in
      let! op0 := store_l op0 i (Z.land op0_val op0_high_mask) in
      let! carry_in_op0_high := lshr (Z.land op0_val (lnot op0_high_mask)) op0_high_shift in
      dassert ((carry =? 0) || (carry_in_op0_high =? 0)) ;;
      ret (op0, Z.lor carry carry_in_op0_high, 0)) (op0, carry, op1_val) in
  ret (op0, carry).

(** ct_add_mp_mp, add_impl.rs:193-195 *)
Definition ct_add_mp_mp (op0 op1 : mp) : M (mp * Z) :=
  let! one := lc_new 1 in ct_add_cond_mp_mp op0 op1 one.

(** ct_sub_cond_mp_mp, add_impl.rs:385-421 *)
Definition ct_sub_cond_mp_mp (op0 op1 : mp) (cond : Z) : M (mp * Z) :=
  let op0_nlimbs := nlimbs op0 in
  let op1_nlimbs := nlimbs op1 in
  dassert (op1_nlimbs <=? op0_nlimbs) ;;
  mif (op1_nlimbs =? 0) then ret (op0, 0) else
  let! '(op0, borrow) := zfor 0 (op1_nlimbs - 1) (fun i '(op0, borrow) =>
    let! op0_val := load_l_full op0 i in
    let! op1_val := load_l_full op1 i in
    let op1_val := lc_select cond 0 op1_val in
    let! '(borrow, op0_val) := ct_sub_l_l_b op0_val op1_val borrow in
    let! op0 := store_l_full op0 i op0_val in
    ret (op0, borrow)) (op0, 0) in
  let! op1_val := load_l op1 (op1_nlimbs - 1) in
  let op1_val := lc_select cond 0 op1_val in
  let! '(op0, borrow, _) := zfor (op1_nlimbs - 1) op0_nlimbs (fun i '(op0, borrow, op1_val) =>
    let! op0_val := load_l op0 i in
    let! '(borrow, op0_val) := ct_sub_l_l_b op0_val op1_val borrow in
    mif (negb (i =? op0_nlimbs - 1) || negb (supports_unaligned op0)) then
      let! op0 := store_l_full op0 i op0_val in
      ret (op0, borrow, 0)
    else
      let! op0_high_mask := partial_high_mask op0 in
      let! op0 := store_l op0 i (Z.land op0_val op0_high_mask) in
      dassert_m (if partial_high_shift op0 =? 0 then ret true else
                 let! s := lshr op0_val (W - 1) in ret (borrow =? s)) ;;
      ret (op0, borrow, 0)) (op0, borrow, op1_val) in
  ret (op0, borrow).

(** ct_sub_mp_mp, add_impl.rs:562-564 *)
Definition ct_sub_mp_mp (op0 op1 : mp) : M (mp * Z) :=
  let! one := lc_new 1 in ct_sub_cond_mp_mp op0 op1 one.

(** CtAddModMpMpError, add_impl.rs:197-200, also CtSubModMpMpError, CtNegateModMpError *)
Inductive add_mod_error := InconsistentOperandLengths.

(** The recurring "store the limb, masking off what does not fit a partial high
    limb" statement, add_impl.rs:223-227, 234-238, 587-591, 597-601. *)
Definition store_masked (op0 : mp) (i result_val : Z) : M mp :=
  mif (negb (supports_unaligned op0) || negb (i =? nlimbs op0 - 1)) then
    store_l_full op0 i result_val
  else
    let! m := partial_high_mask op0 in
    store_l op0 i (Z.land result_val m).

(** debug_assert_ne!(ct_lt_mp_mp(a, b).unwrap(), 0), add_impl.rs:212,213,578,579,819 and elsewhere *)
Definition dassert_lt (a b : mp) : M unit :=
  dassert_m (let! r := ct_lt_mp_mp a b in ret (negb (lc_unwrap r =? 0))).

(** ct_add_mod_mp_mp, add_impl.rs:202-246 *)
Definition ct_add_mod_mp_mp (op0 op1 n : mp) : M (mp * result unit add_mod_error) :=
  let! compat := len_is_compatible_with n (mp_len op0) in
  mif negb compat then ret (op0, Err InconsistentOperandLengths) else
  dassert (nlimbs n <=? nlimbs op0) ;;
  dassert_lt op0 n ;;
  dassert_lt op1 n ;;
  dassert (negb (mp_is_empty n)) ;;
  let op1_n_common_nlimbs := Z.min (nlimbs op1) (nlimbs n) in
  let! '(op0, carry, kernel) := zfor 0 op1_n_common_nlimbs (fun i '(op0, carry, kernel) =>
    let! op0_val := load_l op0 i in
    let! op1_val := load_l op1 i in
    let! '(carry, result_val) := ct_add_l_l_c op0_val op1_val carry in
    let! n_val := load_l n i in
    let! kernel := geq_kernel_update kernel result_val n_val in
    let! op0 := store_masked op0 i result_val in
    ret (op0, carry, kernel)) (op0, 0, geq_kernel_new) in
  let! '(op0, carry, kernel) := zfor op1_n_common_nlimbs (nlimbs n) (fun i '(op0, carry, kernel) =>
    let! op0_val := load_l op0 i in
    let! '(carry, result_val) := ct_add_l_l op0_val carry in
    let! n_val := load_l n i in
    let! kernel := geq_kernel_update kernel result_val n_val in
    let! op0 := store_masked op0 i result_val in
    ret (op0, carry, kernel)) (op0, carry, kernel) in
  let! g := geq_kernel_finish kernel in
  let! cc := lc_new carry in
  let ov := lc_or g cc in
  let! '(op0, _) := ct_sub_cond_mp_mp op0 n ov in
  ret (op0, Ok tt).

(** ct_add_mp_l, add_impl.rs:342-367 *)
Definition ct_add_mp_l (op0 : mp) (op1 : Z) : M (mp * Z) :=
  dassert_m (let! k := ct_find_last_set_byte_l op1 in ret (k <=? mp_len op0)) ;;
  let op0_nlimbs := nlimbs op0 in
  mif (op0_nlimbs =? 0) then ret (op0, 0) else
  let! '(op0, carry) := zfor 0 (op0_nlimbs - 1) (fun i '(op0, carry) =>
    let! op0_val := load_l_full op0 i in
    let! '(carry, op0_val) := ct_add_l_l op0_val carry in
    let! op0 := store_l_full op0 i op0_val in
    ret (op0, carry)) (op0, op1) in
  let! op0_val := load_l op0 (op0_nlimbs - 1) in
  let! '(carry, op0_val) := ct_add_l_l op0_val carry in
  let! op0_high_mask := partial_high_mask op0 in
  let op0_high_shift := partial_high_shift op0 in
  let! op0 := store_l op0 (op0_nlimbs - 1) (Z.land op0_val op0_high_mask) in
  let! carry_in_op0_high := lshr (Z.land op0_val (lnot op0_high_mask)) op0_high_shift in
  dassert ((carry =? 0) || (carry_in_op0_high =? 0)) ;;
  ret (op0, Z.lor carry carry_in_op0_high).

(** ct_sub_mod_mp_mp, add_impl.rs:568-608 *)
Definition ct_sub_mod_mp_mp (op0 op1 n : mp) : M (mp * result unit add_mod_error) :=
  let! compat := len_is_compatible_with n (mp_len op0) in
  mif negb compat then ret (op0, Err InconsistentOperandLengths) else
  dassert (nlimbs n <=? nlimbs op0) ;;
  dassert_lt op0 n ;;
  dassert_lt op1 n ;;
  dassert (negb (mp_is_empty n)) ;;
  let op1_n_common_nlimbs := Z.min (nlimbs op1) (nlimbs n) in
  let! '(op0, borrow) := zfor 0 op1_n_common_nlimbs (fun i '(op0, borrow) =>
    let! op0_val := load_l op0 i in
    let! op1_val := load_l op1 i in
    let! '(borrow, result_val) := ct_sub_l_l_b op0_val op1_val borrow in
    let! op0 := store_masked op0 i result_val in
    ret (op0, borrow)) (op0, 0) in
  let! '(op0, borrow) := zfor op1_n_common_nlimbs (nlimbs n) (fun i '(op0, borrow) =>
    let! op0_val := load_l op0 i in
    let! '(borrow, result_val) := ct_sub_l_l op0_val borrow in
    let! op0 := store_masked op0 i result_val in
    ret (op0, borrow)) (op0, borrow) in
  let! cb := lc_new borrow in
  let! '(op0, _) := ct_add_cond_mp_mp op0 n cb in
  ret (op0, Ok tt).

(** ct_sub_mp_l, add_impl.rs:703-725 *)
Definition ct_sub_mp_l (op0 : mp) (op1 : Z) : M (mp * Z) :=
  dassert_m (let! k := ct_find_last_set_byte_l op1 in ret (k <=? mp_len op0)) ;;
  let op0_nlimbs := nlimbs op0 in
  mif (op0_nlimbs =? 0) then ret (op0, 0) else
  let! '(op0, borrow) := zfor 0 (op0_nlimbs - 1) (fun i '(op0, borrow) =>
    let! op0_val := load_l_full op0 i in
    let! '(borrow, op0_val) := ct_sub_l_l op0_val borrow in
    let! op0 := store_l_full op0 i op0_val in
    ret (op0, borrow)) (op0, op1) in
  let! op0_val := load_l op0 (op0_nlimbs - 1) in
  let! '(borrow, op0_val) := ct_sub_l_l op0_val borrow in
  let! op0_high_mask := partial_high_mask op0 in
  let! op0 := store_l op0 (op0_nlimbs - 1) (Z.land op0_val op0_high_mask) in
  dassert_m (if partial_high_shift op0 =? 0 then ret true else
             let! s := lshr op0_val (W - 1) in ret (borrow =? s)) ;;
  ret (op0, borrow).

(** ct_negate_cond_mp, add_impl.rs:727-746 *)
Definition ct_negate_cond_mp (op0 : mp) (cond : Z) : M mp :=
  mif mp_is_empty op0 then ret op0 else
  let nl := nlimbs op0 in
  let negate_mask := lc_select cond 0 (lnot 0) in
  let negate_carry := Z.land negate_mask 1 in
  let! '(op0, negate_carry) := zfor 0 (nl - 1) (fun i '(op0, negate_carry) =>
    let! op0_val := load_l op0 i in
    let op0_val := Z.lxor op0_val negate_mask in
    let! '(negate_carry, op0_val) := ct_add_l_l op0_val negate_carry in
    let! op0 := store_l op0 i op0_val in
    ret (op0, negate_carry)) (op0, negate_carry) in
  let! op0_val := load_l op0 (nl - 1) in
  let op0_val := Z.lxor op0_val negate_mask in
  let! '(_, op0_val) := ct_add_l_l op0_val negate_carry in
  let! m := partial_high_mask op0 in
  store_l op0 (nl - 1) (Z.land op0_val m).

(** ct_negate_mp, add_impl.rs:806-808 *)
Definition ct_negate_mp (op0 : mp) : M mp :=
  let! one := lc_new 1 in ct_negate_cond_mp op0 one.

(** ct_negate_mod_mp, add_impl.rs:812-825 *)
Definition ct_negate_mod_mp (op0 n : mp) : M (mp * result unit add_mod_error) :=
  let! compat := len_is_compatible_with n (mp_len op0) in
  mif negb compat then ret (op0, Err InconsistentOperandLengths) else
  dassert_lt op0 n ;;
  let! z := ct_is_zero_mp op0 in
  let op0_is_nonzero := lc_not z in
  let! op0 := ct_negate_cond_mp op0 op0_is_nonzero in
  let! '(op0, _) := ct_add_cond_mp_mp op0 n op0_is_nonzero in
  ret (op0, Ok tt).

End Model.
