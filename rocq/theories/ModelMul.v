(** Model of mul_impl.rs: multiprecision multiplication and squaring.  [op0 : &mut]
    is returned.  [black_box_l] is the identity. *)
From Coq Require Import ZArith List Bool.
Require Import Verif.Monad Verif.ModelLimb Verif.ModelBuf.
Import ListNotations.
Open Scope Z_scope.

Section Model.
Context {c : cfg}.

(** The statement storing limb [i] of the result, masked if it is the last one
    ([last]) and may be partial: mul_impl.rs:84-88, 94-98, 354-358, 397-401,
    532-536, 540-544. *)
Definition store_hm (op0 : mp) (last : bool) (i v mask : Z) : M mp :=
  mif negb last || negb (supports_unaligned op0) then store_l_full op0 i v
  else store_l op0 i (Z.land v mask).

(** ct_mul_trunc_cond_mp_mp, mul_impl.rs:45-101 *)
Definition ct_mul_trunc_cond_mp_mp (op0 : mp) (op0_in_len : Z) (op1 : mp) (cond : Z) : M mp :=
  dassert (op0_in_len <=? mp_len op0) ;;
  mif mp_is_empty op1 then
    let cond_mask := lc_select cond 0 (lnot 0) in
    zfor 0 (nlimbs op0) (fun j op0 =>
      let! v := load_l op0 j in
      store_l op0 j (Z.land v (lnot cond_mask))) op0
  else
  let op1_nlimbs := nlimbs op1 in
  let! result_high_mask := partial_high_mask op0 in
  let op0_nlimbs := nlimbs op0 in
  let! op0 := clear_bytes_above op0 op0_in_len in
  let op0_in_nlimbs := ct_mp_nlimbs op0_in_len in
  zfor_down 0 op0_in_nlimbs (fun j op0 =>
    let! op0_val := load_l op0 j in
    let! op0 := store_l op0 j 0 in
    let! result_nlimbs := usub op0_nlimbs j in
    let cond_unit := lc_select cond 1 0 in
    let! '(op0, carry, _) := zfor 0 (Z.min op1_nlimbs result_nlimbs) (fun k '(op0, carry, cond_unit) =>
      let! op1_val := load_l op1 k in
      let op1_val := Z.lor (lc_select cond 0 op1_val) cond_unit in
      let! result_val := load_l op0 (j + k) in
      let! '(carry, result_val) := ct_mul_add_l_l_l_c result_val op0_val op1_val carry in
      let! l := usub result_nlimbs 1 in
      let! op0 := store_hm op0 (k =? l) (j + k) result_val result_high_mask in
      ret (op0, carry, 0)) (op0, 0, cond_unit) in
    let! '(op0, _) := zfor op1_nlimbs result_nlimbs (fun k '(op0, carry) =>
      let! result_val := load_l op0 (j + k) in
      let! '(carry, result_val) := ct_add_l_l result_val carry in
      let! l := usub result_nlimbs 1 in
      let! op0 := store_hm op0 (k =? l) (j + k) result_val result_high_mask in
      ret (op0, carry)) (op0, carry) in
    ret op0) op0.

(** ct_mul_trunc_mp_mp, mul_impl.rs:235-241 *)
Definition ct_mul_trunc_mp_mp (op0 : mp) (op0_in_len : Z) (op1 : mp) : M mp :=
  let! one := lc_new 1 in ct_mul_trunc_cond_mp_mp op0 op0_in_len op1 one.

(** The statements doubling [last_prod_high] and adding [carry] to it,
    mul_impl.rs:295-304 and 368-374; returns (carry0, last_prod_high). *)
Definition square_double (last_prod_high carry : Z) : M (Z * Z) :=
  let! s := sub32 W 1 in
  let! carry0 := lshr last_prod_high s in
  let last_prod_high := lwmul last_prod_high 2 in
  dassert (last_prod_high <=? lnot 3) ;;
  dassert ((carry <=? 2) || (last_prod_high <=? lnot 5)) ;;
  let! last_prod_high := ladd last_prod_high carry in
  ret (carry0, last_prod_high).

(** ct_square_trunc_mp, mul_impl.rs:264-404.  [continue] ends the body of the
    outer loop, which becomes an if. *)
Definition ct_square_trunc_mp (op0 : mp) (op0_in_len : Z) : M mp :=
  dassert (op0_in_len <=? mp_len op0) ;;
  let! result_high_mask := partial_high_mask op0 in
  let op0_nlimbs := nlimbs op0 in
  let! op0 := clear_bytes_above op0 op0_in_len in
  let op0_in_nlimbs := ct_mp_nlimbs op0_in_len in
  zfor_down 0 op0_in_nlimbs (fun j op0 =>
    let! op0_val := load_l op0 j in
    let! op0 := store_l op0 j 0 in
    let! result_nlimbs := usub op0_nlimbs j in
    let! '(op0, last_prod_high, carry) := zfor 0 (Z.min j result_nlimbs) (fun k '(op0, last_prod_high, carry) =>
      let! op1_val := load_l op0 k in
      let! '(prod_high, prod_low) := ct_mul_l_l op0_val op1_val in
      let! result_val := load_l op0 (j + k) in
      let! '(carry0, last_prod_high) := square_double last_prod_high carry in
      let! '(carry1, result_val) := ct_add_l_l result_val last_prod_high in
      let last_prod_high := prod_high in
      let! s := sub32 W 1 in
      let! carry2 := lshr prod_low s in
      let prod_low := lwmul prod_low 2 in
      let! '(carry3, result_val) := ct_add_l_l result_val prod_low in
      let! carry := ladd carry0 carry1 in
      let! carry := ladd carry carry2 in
      let! carry := ladd carry carry3 in
      dassert (last_prod_high <=? lnot 1) ;;
      dassert ((carry <=? 2) || (last_prod_high <=? lnot 2)) ;;
      let! l := usub result_nlimbs 1 in
      let! op0 := store_hm op0 (k =? l) (j + k) result_val result_high_mask in
      ret (op0, last_prod_high, carry)) (op0, 0, 0) in
    mif (result_nlimbs <=? j) then ret op0 else
    let! '(prod_high, prod_low) := ct_mul_l_l op0_val op0_val in
    let! result_val := load_l op0 (2 * j) in
    let! '(carry0, last_prod_high) := square_double last_prod_high carry in
    let! '(carry1, result_val) := ct_add_l_l result_val last_prod_high in
    let last_prod_high := prod_high in
    let! '(carry2, result_val) := ct_add_l_l result_val prod_low in
    let! carry := ladd carry0 carry1 in
    let! carry := ladd carry carry2 in
    let! l := usub result_nlimbs 1 in
    let! op0 := (mif negb (j =? l) then store_l_full op0 (2 * j) result_val
                 else store_l op0 (2 * j) (Z.land result_val result_high_mask)) in
    let! '(op0, _, _) := zfor (j + 1) result_nlimbs (fun k '(op0, last_prod_high, carry) =>
      let! result_val := load_l op0 (j + k) in
      let! '(carry0, result_val) := ct_add_l_l result_val last_prod_high in
      let! '(carry1, result_val) := ct_add_l_l result_val carry in
      let! carry := ladd carry0 carry1 in
      let! l := usub result_nlimbs 1 in
      let! op0 := store_hm op0 (k =? l) (j + k) result_val result_high_mask in
      ret (op0, 0, carry)) (op0, last_prod_high, carry) in
    ret op0) op0.

(** ct_mul_trunc_mp_l, mul_impl.rs:516-547 *)
Definition ct_mul_trunc_mp_l (op0 : mp) (op0_in_len op1 : Z) : M mp :=
  dassert (op0_in_len <=? mp_len op0) ;;
  let! result_high_mask := partial_high_mask op0 in
  let op0_nlimbs := nlimbs op0 in
  let! op0 := clear_bytes_above op0 op0_in_len in
  let op0_in_nlimbs := ct_mp_nlimbs op0_in_len in
  mif (op0_in_len =? 0) then ret op0 else
  let! '(op0, carry) := zfor 0 op0_in_nlimbs (fun j '(op0, carry) =>
    let! op0_val := load_l op0 j in
    let! '(carry, result_val) := ct_mul_add_l_l_l_c 0 op0_val op1 carry in
    let! l := usub op0_nlimbs 1 in
    let! op0 := store_hm op0 (j =? l) j result_val result_high_mask in
    ret (op0, carry)) (op0, 0) in
  mif negb (op0_in_nlimbs =? op0_nlimbs) then
    let! l := usub op0_nlimbs 1 in
    store_hm op0 (op0_in_nlimbs =? l) op0_in_nlimbs carry result_high_mask
  else ret op0.

End Model.
