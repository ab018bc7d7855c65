(** Model of src/limb/mod.rs, src/limb/x86_64_math.rs and src/usize_ct_cmp.rs.

    [black_box_l] / [black_box_usize] (limb/mod.rs:103-110,
    usize_ct_cmp.rs:8-16) are identity functions and are omitted. *)
From Coq Require Import ZArith List Bool.
Require Import Verif.Spec Verif.Monad.
Import ListNotations.
Open Scope Z_scope.

Section Model.
Context {c : cfg}.

(** ** LimbChoice: limb/mod.rs:127-244.  Represented by its mask. *)

(** LimbChoice::new / From<LimbType>, limb/mod.rs:138-143, 193-197 *)
Definition lc_new (cond : Z) : M Z :=
  dassert ((cond =? 0) || (cond =? 1)) ;;
  ret (lwsub 0 cond).
(** LimbChoice::unwrap, limb/mod.rs:149-151 *)
Definition lc_unwrap (mask : Z) : Z := Z.land mask 1.
(** LimbChoice::select, limb/mod.rs:165-167 *)
Definition lc_select (mask v0 v1 : Z) : Z := Z.lxor v0 (Z.land mask (Z.lxor v0 v1)).
(** LimbChoice::select_usize, limb/mod.rs:181-185 *)
Definition lc_select_usize (mask v0 v1 : Z) : Z :=
  let cond := lc_unwrap mask in
  let mask := (0 - cond) mod 2 ^ UW in
  Z.lxor v0 (Z.land mask (Z.lxor v0 v1)).
(** Not / BitAnd / BitOr, limb/mod.rs:200-244 *)
Definition lc_not (mask : Z) : Z := lnot mask.
(** BitAnd, limb/mod.rs:209-226 *)
Definition lc_and (m0 m1 : Z) : Z := Z.land m0 m1.
(** BitOr, limb/mod.rs:228-244 *)
Definition lc_or (m0 m1 : Z) : Z := Z.lor m0 m1.

(** ** Comparisons *)

(** generic_ct_is_nonzero_l, limb/mod.rs:261-265 *)
Definition generic_ct_is_nonzero_l (v : Z) : M Z :=
  let! s := sub32 W 1 in
  lshr (Z.lor v (lwneg v)) s.
(** x86_64_math::ct_is_nonzero_l, x86_64_math.rs:31-44: xor; test; setnz *)
Definition x86_ct_is_nonzero_l (v : Z) : M Z := ret (b2z (negb (Z.land v v =? 0))).
(** ct_is_nonzero_l, limb/mod.rs:286-288 *)
Definition ct_is_nonzero_l (v : Z) : M Z :=
  if use_asm then x86_ct_is_nonzero_l v else generic_ct_is_nonzero_l v.
(** generic_ct_is_zero_l, limb/mod.rs:296-298 *)
Definition generic_ct_is_zero_l (v : Z) : M Z :=
  let! nz := ct_is_nonzero_l v in ret (Z.lxor 1 nz).
(** x86_64_math::ct_is_zero_l, x86_64_math.rs:51-64: xor; test; setz *)
Definition x86_ct_is_zero_l (v : Z) : M Z := ret (b2z (Z.land v v =? 0)).
(** ct_is_zero_l, limb/mod.rs:319-321 *)
Definition ct_is_zero_l (v : Z) : M Z :=
  if use_asm then x86_ct_is_zero_l v else generic_ct_is_zero_l v.
(** ct_eq_l_l, limb/mod.rs:334-336 *)
Definition ct_eq_l_l (v0 v1 : Z) : M Z :=
  let! z := ct_is_zero_l (Z.lxor v0 v1) in lc_new z.
(** ct_neq_l_l, limb/mod.rs:349-351 *)
Definition ct_neq_l_l (v0 v1 : Z) : M Z :=
  let! e := ct_eq_l_l v0 v1 in ret (lc_not e).

(** generic_ct_sub_l_l, limb/mod.rs:582-590 *)
Definition generic_ct_sub_l_l (v0 v1 : Z) : M (Z * Z) :=
  let r := lwsub v0 v1 in
  let! s := sub32 W 1 in
  let! borrow := lshr (Z.lor (Z.land (Z.lor r v1) (lnot v0)) (Z.land v1 r)) s in
  ret (borrow, r).
(** x86_64_math::ct_sub_l_l, x86_64_math.rs:94-109: xor; sub; setc *)
Definition x86_ct_sub_l_l (v0 v1 : Z) : M (Z * Z) :=
  ret (b2z (v0 <? v1), (v0 - v1) mod 2 ^ 64).
(** ct_sub_l_l, limb/mod.rs:611-613 *)
Definition ct_sub_l_l (v0 v1 : Z) : M (Z * Z) :=
  if use_asm then x86_ct_sub_l_l v0 v1 else generic_ct_sub_l_l v0 v1.
(** ct_sub_l_l_b, limb/mod.rs:650-657 *)
Definition ct_sub_l_l_b (v0 v1 borrow : Z) : M (Z * Z) :=
  dassert (borrow <=? 1) ;;
  let! '(borrow0, r) := ct_sub_l_l v0 borrow in
  let! '(borrow1, r) := ct_sub_l_l r v1 in
  let! borrow := ladd borrow0 borrow1 in
  dassert (borrow <=? 1) ;;
  ret (borrow, r).

(** ct_lt_or_eq_l_l, limb/mod.rs:374-378 *)
Definition ct_lt_or_eq_l_l (v0 v1 : Z) : M (Z * Z) :=
  let! '(borrow, diff) := ct_sub_l_l v0 v1 in
  dassert (negb (diff =? 0) || (borrow =? 0)) ;;
  let! z := ct_is_zero_l diff in
  ret (borrow, z).
(** ct_lt_l_l, limb/mod.rs:391-394 *)
Definition ct_lt_l_l (v0 v1 : Z) : M Z :=
  let! '(borrow, _) := ct_sub_l_l v0 v1 in lc_new borrow.
(** ct_leq_l_l, limb/mod.rs:407-409 *)
Definition ct_leq_l_l (v0 v1 : Z) : M Z :=
  let! r := ct_lt_l_l v1 v0 in ret (lc_not r).
(** ct_gt_l_l, limb/mod.rs:422-424 *)
Definition ct_gt_l_l (v0 v1 : Z) : M Z := ct_lt_l_l v1 v0.
(** ct_geq_l_l, limb/mod.rs:437-439 *)
Definition ct_geq_l_l (v0 v1 : Z) : M Z := ct_leq_l_l v1 v0.

(** ct_lsb_mask_l, limb/mod.rs:453-468 *)
Definition ct_lsb_mask_l (nbits : Z) : M Z :=
  dassert (nbits <=? W) ;;
  let nbits_lo := nbits mod W in
  let nbits_hi := nbits / W in
  dassert (nbits_hi <=? 1) ;;
  dassert ((nbits_hi =? 0) || (nbits_lo =? 0)) ;;
  let! one_shifted := lshl 1 nbits_lo in
  let! mask_for_lo := lsub one_shifted 1 in
  let mask_for_hi := lwsub 0 (nbits_hi mod B) in
  ret (Z.lor mask_for_lo mask_for_hi).

(** HALF_LIMB_MASK, limb/mod.rs:49 (a compile-time constant). *)
Definition half_limb_mask : Z := Z.ones HW.
(** ct_l_to_hls, limb/mod.rs:488-493 *)
Definition ct_l_to_hls (v : Z) : M (Z * Z) :=
  let! h := lshr v HW in
  ret (h, Z.land v half_limb_mask).

(** ** Addition and multiplication *)

(** generic_ct_add_l_l, limb/mod.rs:501-509 *)
Definition generic_ct_add_l_l (v0 v1 : Z) : M (Z * Z) :=
  let r := lwadd v0 v1 in
  let! s := sub32 W 1 in
  let! carry := lshr (Z.lor (Z.land (Z.lor v0 v1) (lnot r)) (Z.land v0 v1)) s in
  ret (carry, r).
(** x86_64_math::ct_add_l_l, x86_64_math.rs:71-86: xor; add; setc *)
Definition x86_ct_add_l_l (v0 v1 : Z) : M (Z * Z) :=
  ret (b2z (2 ^ 64 <=? v0 + v1), (v0 + v1) mod 2 ^ 64).
(** ct_add_l_l, limb/mod.rs:530-532 *)
Definition ct_add_l_l (v0 v1 : Z) : M (Z * Z) :=
  if use_asm then x86_ct_add_l_l v0 v1 else generic_ct_add_l_l v0 v1.
(** ct_add_l_l_c, limb/mod.rs:567-574 *)
Definition ct_add_l_l_c (v0 v1 carry : Z) : M (Z * Z) :=
  dassert (carry <=? 1) ;;
  let! '(carry0, r) := ct_add_l_l v0 carry in
  let! '(carry1, r) := ct_add_l_l r v1 in
  let! carry := ladd carry0 carry1 in
  dassert (carry <=? 1) ;;
  ret (carry, r).

(** generic_ct_mul_l_l, limb/mod.rs:702-730.  A DoubleLimb (limb/mod.rs:665-694)
    is the pair (high, low). *)
Definition generic_ct_mul_l_l (v0 v1 : Z) : M (Z * Z) :=
  let! '(v0h, v0l) := ct_l_to_hls v0 in
  let! '(v1h, v1l) := ct_l_to_hls v1 in
  let! prod_v0l_v1l := lmul v0l v1l in
  let! prod_v0l_v1h := lmul v0l v1h in
  let! prod_v0h_v1l := lmul v0h v1l in
  let! prod_v0h_v1h := lmul v0h v1h in
  let result_low := prod_v0l_v1l in
  let result_high := prod_v0h_v1h in
  let! '(prod_v0l_v1h_h, prod_v0l_v1h_l) := ct_l_to_hls prod_v0l_v1h in
  let! '(prod_v0h_v1l_h, prod_v0h_v1l_l) := ct_l_to_hls prod_v0h_v1l in
  let! sh := lshl prod_v0l_v1h_l HW in
  let! '(result_low_carry, result_low) := ct_add_l_l result_low sh in
  let! result_high := ladd result_high result_low_carry in
  let! result_high := ladd result_high prod_v0l_v1h_h in
  let! sh := lshl prod_v0h_v1l_l HW in
  let! '(result_low_carry, result_low) := ct_add_l_l result_low sh in
  let! result_high := ladd result_high result_low_carry in
  let! result_high := ladd result_high prod_v0h_v1l_h in
  ret (result_high, result_low).
(** x86_64_math::ct_mul_l_l, x86_64_math.rs:116-128: mul *)
Definition x86_ct_mul_l_l (v0 v1 : Z) : M (Z * Z) :=
  ret ((v0 * v1) / 2 ^ 64, (v0 * v1) mod 2 ^ 64).
(** ct_mul_l_l, limb/mod.rs:751-753 *)
Definition ct_mul_l_l (v0 v1 : Z) : M (Z * Z) :=
  if use_asm then x86_ct_mul_l_l v0 v1 else generic_ct_mul_l_l v0 v1.

(** ct_mul_add_l_l_l_c, limb/mod.rs:807-826 *)
Definition ct_mul_add_l_l_l_c (op0 op10 op11 carry : Z) : M (Z * Z) :=
  let! '(ph, pl) := ct_mul_l_l op10 op11 in
  dassert ((ph <? lnot 1) || ((ph =? lnot 1) && (pl =? 1))) ;;
  let! '(carry0, r) := ct_add_l_l op0 carry in
  let! '(carry1, r) := ct_add_l_l r pl in
  dassert ((ph <? lnot 1) || (carry0 + carry1 <=? 1)) ;;
  let! carry := ladd ph carry0 in
  let! carry := ladd carry carry1 in
  ret (carry, r).
(** ct_mul_sub_l_l_l_b, limb/mod.rs:853-872 *)
Definition ct_mul_sub_l_l_l_b (op0 op10 op11 borrow : Z) : M (Z * Z) :=
  let! '(ph, pl) := ct_mul_l_l op10 op11 in
  dassert ((ph <? lnot 1) || ((ph =? lnot 1) && (pl =? 1))) ;;
  let! '(borrow0, r) := ct_sub_l_l op0 borrow in
  let! '(borrow1, r) := ct_sub_l_l r pl in
  dassert ((ph <? lnot 1) || (borrow0 + borrow1 <=? 1)) ;;
  let! borrow := ladd ph borrow0 in
  let! borrow := ladd borrow borrow1 in
  ret (borrow, r).

(** ** Bit scans *)

(** ct_find_last_set_bit_l, limb/mod.rs:1493-1511.  The [while bits > 1] loop
    runs with fuel; running out of fuel counts as a panic. *)
Fixpoint fls_loop (fuel : nat) (bits lsb_mask v count : Z) : M Z :=
  mif (1 <? bits) then
    match fuel with
    | O => panic
    | S fuel =>
      let bits := bits / 2 in
      let! lsb_mask := lshr lsb_mask bits in
      let v_l := Z.land v lsb_mask in
      let! v_h := lshr v bits in
      let! upper := ct_neq_l_l v_h 0 in
      let count := count + lc_select upper 0 bits in
      let v := lc_select upper v_l v_h in
      fls_loop fuel bits lsb_mask v count
    end
  else
    dassert (v <=? 1) ;;
    ret (count + v).
(** ct_find_last_set_bit_l, limb/mod.rs:1493-1511 *)
Definition ct_find_last_set_bit_l (v : Z) : M Z :=
  let bits := W in
  assert (negb (bits =? 0)) ;;
  assert (Z.land bits (bits - 1) =? 0) ;;
  fls_loop (Z.to_nat W) bits (lnot 0) v 0.
(** ct_find_last_set_byte_l, limb/mod.rs:1536-1538 *)
Definition ct_find_last_set_byte_l (v : Z) : M Z :=
  let! b := ct_find_last_set_bit_l v in ret ((b + 8 - 1) / 8).

(** ct_find_first_set_bit_l, limb/mod.rs:1554-1572 *)
Fixpoint ffs_loop (fuel : nat) (bits lsb_mask v count : Z) : M Z :=
  mif (1 <? bits) then
    match fuel with
    | O => panic
    | S fuel =>
      let bits := bits / 2 in
      let! lsb_mask := lshr lsb_mask bits in
      let v_l := Z.land v lsb_mask in
      let! v_h := lshr v bits in
      let! lower := ct_neq_l_l v_l 0 in
      let! count := usub count (lc_select lower 0 bits) in
      let v := lc_select lower v_h v_l in
      ffs_loop fuel bits lsb_mask v count
    end
  else
    dassert (v <=? 1) ;;
    usub count v.
(** ct_find_first_set_bit_l, limb/mod.rs:1554-1572 *)
Definition ct_find_first_set_bit_l (v : Z) : M Z :=
  let bits := W in
  assert (negb (bits =? 0)) ;;
  assert (Z.land bits (bits - 1) =? 0) ;;
  ffs_loop (Z.to_nat W) bits (lnot 0) v W.

(** ct_arithmetic_rshift_l, limb/mod.rs:1599-1606 *)
Definition ct_arithmetic_rshift_l (v rshift : Z) : M Z :=
  let! nz := ct_is_nonzero_l rshift in
  let! nz := lc_new nz in
  let rshift_nz_mask := lc_select nz 0 (lnot 0) in
  let! s := sub32 W 1 in
  let! msb := lshr v s in
  let sign_extend := lwsub 0 msb in
  let! d := lsub W rshift in
  let! sign_extend := lshl sign_extend (Z.land d rshift_nz_mask) in
  let sign_extend := Z.land sign_extend rshift_nz_mask in
  let! e := ct_eq_l_l rshift W in
  let rshift_lt_max_mask := lc_select e (lnot 0) 0 in
  let! sh := lshr v (Z.land rshift rshift_lt_max_mask) in
  ret (Z.lor sign_extend (Z.land sh rshift_lt_max_mask)).

(** ct_negate_l, limb/mod.rs:1654-1656 *)
Definition ct_negate_l (v : Z) : Z := lwadd (lnot v) 1.

(** ct_inv_mod_l, limb/mod.rs:1447-1461 *)
Fixpoint inv_mod_l_loop (fuel : nat) (k v r : Z) : M Z :=
  mif (k <? W) then
    match fuel with
    | O => panic
    | S fuel =>
      let! r2 := lshl r 1 in
      let r := lwsub r2 (lwmul (lwmul v r) r) in
      inv_mod_l_loop fuel (k * 2) v r
    end
  else ret r.
(** ct_inv_mod_l, limb/mod.rs:1447-1461 *)
Definition ct_inv_mod_l (v : Z) : M Z :=
  dassert (Z.land v 1 =? 1) ;;
  inv_mod_l_loop (Z.to_nat W) 1 v 1.

(** ** Double-limb by limb division *)

(** CtLDivisor, limb/mod.rs:911-918 *)
Record ct_l_divisor := mk_ldiv { ld_m : Z; ld_v : Z; ld_v_width : Z }.
(** CtLDivisorError / NonCtLDivisorError, limb/mod.rs:920-925, 1174-1178 *)
Inductive ldiv_err := LDivisorIsZero.

(** CtLDivisor::ct_compute_m, limb/mod.rs:965-986 *)
Definition ct_compute_m (v v_width : Z) : M Z :=
  dassert (0 <? v_width) ;;
  let! d := sub32 W v_width in
  let! v := lshl v d in
  let! r_msb := lc_new 0 in
  let r_h := lnot 0 in
  let! msk := ct_lsb_mask_l d in
  let r_l := lnot msk in
  let! '(_, _, _, q) :=
    zfor 0 (W + 1) (fun _ '(r_msb, r_h, r_l, q) =>
      let! ge := ct_geq_l_l r_h v in
      let q_new_lsb := lc_or r_msb ge in
      let! q2 := lshl q 1 in
      let q := Z.lor q2 (lc_unwrap q_new_lsb) in
      let r_h := lwsub r_h (lc_select q_new_lsb 0 v) in
      let! s := sub32 W 1 in
      let! t := lshr r_h s in
      let! r_msb := lc_new t in
      let! r_h2 := lshl r_h 1 in
      let! r_l_msb := lshr r_l s in
      let r_h := Z.lor r_h2 r_l_msb in
      let! r_l := lshl r_l 1 in
      ret (r_msb, r_h, r_l, q)) (r_msb, r_h, r_l, 0) in
  ret q.
(** CtLDivisor::new, limb/mod.rs:943-951 *)
Definition ct_l_divisor_new (v : Z) : M (result ct_l_divisor ldiv_err) :=
  let! z := ct_is_zero_l v in
  mif (negb (z =? 0)) then ret (Err LDivisorIsZero) else
  dassert (negb (v =? 0)) ;;
  let! v_width := ct_find_last_set_bit_l v in
  let! m := ct_compute_m v v_width in
  ret (Ok (mk_ldiv m v v_width)).

(** CtLDivisor::do_div, limb/mod.rs:1057-1121.  [u] = (high, low). *)
Definition ct_l_divisor_do_div (d : ct_l_divisor) (u : Z * Z) : M (Z * Z) :=
  let '(uh, ul) := u in
  let l := ld_v_width d in
  dassert ((0 <? l) && (l <=? W)) ;;
  let! l1 := sub32 l 1 in
  let! t := lshr ul l1 in
  let! u2 := lshr t 1 in
  let! wl := sub32 W l in
  let! uhs := lshl uh wl in
  let u2 := Z.lor u2 uhs in
  let! u10 := lshl ul wl in
  let! w1 := sub32 W 1 in
  let! u1 := lshr u10 w1 in
  let! v_norm := lshl (ld_v d) wl in
  let! vmsb := lshr v_norm w1 in
  dassert (vmsb =? 1) ;;
  let! c1 := lc_new u1 in
  let n_adj := lwadd u10 (lc_select c1 0 v_norm) in
  dassert ((u2 <? lnot 0) || (u1 =? 0)) ;;
  let! u21 := ladd u2 u1 in
  let! '(ph, pl) := ct_mul_l_l (ld_m d) u21 in
  let! '(carry, _) := ct_add_l_l pl n_adj in
  let! '(carry, q1) := ct_add_l_l_c u2 ph carry in
  dassert (carry =? 0) ;;
  let neg_q_plus_one := ct_negate_l (lwadd q1 1) in
  let! '(ph, pl) := ct_mul_l_l neg_q_plus_one (ld_v d) in
  let! '(carry, r_l) := ct_add_l_l ul pl in
  let! '(carry, r_h) := ct_add_l_l_c uh ph carry in
  let! '(borrow, r_h) := ct_sub_l_l r_h (ld_v d) in
  dassert ((carry =? 0) || negb (borrow =? 0)) ;;
  let borrow := Z.lxor borrow carry in
  let! is_negative := lc_new borrow in
  let! q := ladd q1 (lc_select (lc_not is_negative) 0 1) in
  let! '(carry, r_l) := ct_add_l_l r_l (lc_select is_negative 0 (ld_v d)) in
  dassert (lwadd r_h carry =? 0) ;;
  dassert (r_l <? ld_v d) ;;
  ret (q, r_l).

(** NonCtLDivisor, generic (limb/mod.rs:1186-1309) or assembly
    (x86_64_math.rs:138-180) backend. *)
Record nonct_l_divisor := mk_nonct_ldiv {
  nd_v : Z; nd_scaling_shift : Z; nd_low_src_rshift : Z; nd_low_src_mask : Z }.
(** u64::leading_zeros (Rust standard library), called at limb/mod.rs:1210. *)
Definition leading_zeros (v : Z) : Z := if v =? 0 then W else W - 1 - Z.log2 v.
(** GenericNonCtLDivisor::new, limb/mod.rs:1204-1220; the assembly backend
    (x86_64_math.rs:153-158) stores only [v]. *)
Definition nonct_l_divisor_new (v : Z) : M (result nonct_l_divisor ldiv_err) :=
  mif (v =? 0) then ret (Err LDivisorIsZero) else
  if use_asm then ret (Ok (mk_nonct_ldiv v 0 0 0)) else
  let scaling_shift := leading_zeros v in
  let! d := sub32 W scaling_shift in
  let! mask := ct_lsb_mask_l scaling_shift in
  ret (Ok (mk_nonct_ldiv v scaling_shift (d mod W) mask)).
(** One iteration of the loop in GenericNonCtLDivisor::do_div,
    limb/mod.rs:1241-1299. *)
Definition nonct_div_step (v v_hl_h v_hl_l : Z) (st : Z * Z * Z) : M (Z * Z * Z) :=
  let '(u_h, u_l, q) := st in
  let! cq := ldivhw u_h v_hl_h in
  let cq := Z.min cq half_limb_mask in
  let! t := lmul cq v_hl_h in
  let! r := lsub u_h t in
  let! r_ov := lshr r HW in
  let r_ov := negb (r_ov =? 0) in
  let! over :=
    (mif r_ov then ret false else
     let! a := lmul cq v_hl_l in
     let! b := lshl r HW in
     let! b' := lshr u_l HW in
     let over := Z.lor b b' <? a in
     tick (EBr over) ;; ret over) in
  let! cur_q_hl := (if (over : bool) then lsub cq 1 else ret cq) in
  let! u2 := lshr u_h HW in
  let! u1a := lshl u_h HW in
  let! u1b := lshr u_l HW in
  let u1 := Z.lor u1a u1b in
  let! u0 := lshl u_l HW in
  let! '(borrow, u1) := ct_mul_sub_l_l_l_b u1 cur_q_hl v 0 in
  let! '(borrow, u2) := ct_sub_l_l u2 borrow in
  let! '(cur_q_hl, u1, u2) :=
    (mif (negb (borrow =? 0)) then
       let! cur_q_hl := lsub cur_q_hl 1 in
       let! '(carry, u1) := ct_add_l_l u1 v in
       let! '(_, u2) := ct_add_l_l u2 carry in
       ret (cur_q_hl, u1, u2)
     else ret (cur_q_hl, u1, u2)) in
  dassert (u2 =? 0) ;;
  let! qs := lshl q HW in
  ret (u1, u0, Z.lor qs cur_q_hl).
(** GenericNonCtLDivisor::do_div, limb/mod.rs:1224-1304 *)
Definition generic_nonct_do_div (d : nonct_l_divisor) (u : Z * Z) : M (Z * Z) :=
  let '(uh, ul) := u in
  let! v := lshl (nd_v d) (nd_scaling_shift d) in
  let! v_hl_h := lshr v HW in
  let v_hl_l := Z.land v half_limb_mask in
  let! a := lshl uh (nd_scaling_shift d) in
  let! b := lshr ul (nd_low_src_rshift d) in
  let u_h := Z.lor a (Z.land b (nd_low_src_mask d)) in
  let! chk := lshr u_h (nd_scaling_shift d) in
  dassert (chk =? uh) ;;
  let! u_l := lshl ul (nd_scaling_shift d) in
  let! '(u_h, u_l, q) :=
    zfor 0 2 (fun _ st => nonct_div_step v v_hl_h v_hl_l st) (u_h, u_l, 0) in
  dassert (u_l =? 0) ;;
  let! r := lshr u_h (nd_scaling_shift d) in
  ret (q, r).
(** x86_64_math::NonCtLDivisor::do_div, x86_64_math.rs:162-175: [div] faults on
    a zero divisor or a quotient that does not fit. *)
Definition x86_nonct_do_div (d : nonct_l_divisor) (u : Z * Z) : M (Z * Z) :=
  let '(uh, ul) := u in
  tick (EDiv (uh * 2 ^ 64 + ul) (nd_v d)) ;;
  if uh <? nd_v d
  then ret ((uh * 2 ^ 64 + ul) / nd_v d, (uh * 2 ^ 64 + ul) mod nd_v d)
  else panic.
(** NonCtLDivisor::do_div, limb/mod.rs:1357-1359 *)
Definition nonct_l_divisor_do_div (d : nonct_l_divisor) (u : Z * Z) : M (Z * Z) :=
  if use_asm then x86_nonct_do_div d u else generic_nonct_do_div d u.

(** CtLDivisor::nonct_compute_m, limb/mod.rs:1019-1024 *)
Definition nonct_compute_m (v v_width : Z) : M Z :=
  let! r := nonct_l_divisor_new v in
  match r with
  | Err _ => panic (* unwrap *)
  | Ok d =>
    let! mask := ct_lsb_mask_l v_width in
    let! h := lsub mask v in
    let! '(q, _) := nonct_l_divisor_do_div d (h, lnot 0) in
    ret q
  end.
(** CtLDivisor::nonct_new, limb/mod.rs:998-1005 *)
Definition ct_l_divisor_nonct_new (v : Z) : M (result ct_l_divisor ldiv_err) :=
  mif (v =? 0) then ret (Err LDivisorIsZero) else
  let! v_width := ct_find_last_set_bit_l v in
  let! m := nonct_compute_m v v_width in
  ret (Ok (mk_ldiv m v v_width)).

(** ** usize comparisons: src/usize_ct_cmp.rs *)

(** [!v] on usize, usize_ct_cmp.rs:38 *)
Definition unot (v : Z) : Z := Z.lxor v (Z.ones UW).
(** ct_is_nonzero_usize, usize_ct_cmp.rs:18-22 (the shift distance
    usize::BITS - 1 is always in range) *)
Definition ct_is_nonzero_usize (v : Z) : Z :=
  Z.shiftr (Z.lor v ((- v) mod 2 ^ UW)) (UW - 1).
(** ct_is_zero_usize, usize_ct_cmp.rs:24-26 *)
Definition ct_is_zero_usize (v : Z) : Z := Z.lxor 1 (ct_is_nonzero_usize v).
(** ct_eq_usize_usize, usize_ct_cmp.rs:28-30 *)
Definition ct_eq_usize_usize (v0 v1 : Z) : M Z := lc_new (ct_is_zero_usize (Z.lxor v0 v1)).
(** ct_sub_usize_usize, usize_ct_cmp.rs:32-40 *)
Definition ct_sub_usize_usize (v0 v1 : Z) : Z * Z :=
  let r := (v0 - v1) mod 2 ^ UW in
  (Z.shiftr (Z.lor (Z.land (Z.lor r v1) (unot v0)) (Z.land v1 r)) (UW - 1), r).
(** ct_lt/leq/gt/geq_usize_usize, usize_ct_cmp.rs:60-76 *)
Definition ct_lt_usize_usize (v0 v1 : Z) : M Z :=
  let '(borrow, _) := ct_sub_usize_usize v0 v1 in lc_new borrow.
(** ct_leq_usize_usize, usize_ct_cmp.rs:66-68 *)
Definition ct_leq_usize_usize (v0 v1 : Z) : M Z :=
  let! r := ct_lt_usize_usize v1 v0 in ret (lc_not r).
(** ct_gt_usize_usize, usize_ct_cmp.rs:70-72 *)
Definition ct_gt_usize_usize (v0 v1 : Z) : M Z := ct_lt_usize_usize v1 v0.
(** ct_geq_usize_usize, usize_ct_cmp.rs:74-76 *)
Definition ct_geq_usize_usize (v0 v1 : Z) : M Z := ct_leq_usize_usize v1 v0.

End Model.
