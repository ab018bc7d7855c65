(** Model of div_impl.rs: multiprecision long division.  Mutable arguments are
    returned.  [unwrap_or(0)] on the optional decrement is [dv_dec0]. *)
From Coq Require Import ZArith List Bool.
Require Import Verif.Spec Verif.Monad Verif.ModelLimb Verif.ModelBuf Verif.ModelShift.
Import ListNotations.
Open Scope Z_scope.

Section Model.
Context {c : cfg}.

(** CtMpDivisor, div_impl.rs:22-32 *)
Record mp_divisor := mk_divisor {
  dv_v : mp; dv_dec : option Z; dv_len : Z; dv_shift : Z; dv_rshift : Z; dv_mask : Z;
  dv_ldiv : ct_l_divisor; dv_head : Z; dv_tail : Z
}.
(** [v.v_decrement.unwrap_or(0)], div_impl.rs:403,429,864,926,1286,1329,1410,1446 *)
Definition dv_dec0 (d : mp_divisor) : Z := match dv_dec d with Some x => x | None => 0 end.
(** CtMpDivisorError, div_impl.rs:34-37 *)
Inductive divisor_err := DivisorIsZero.
(** CtDivMpMpError and CtDivPow2MpError, div_impl.rs:283-286, 696-700 *)
Inductive div_err := InsufficientQuotientSpace | InsufficientRemainderSpace.

(** CtMpDivisor::_scale_val, div_impl.rs:202-218; returns (carry, scaled value). *)
Definition scale_val_ (val shift rshift mask carry : Z) : M (Z * Z) :=
  dassert_m (let! lim := lshl 1 shift in ret (carry <=? lim)) ;;
  let! vs := lshl val shift in
  let! '(carry, scaled_val) := ct_add_l_l vs carry in
  dassert ((carry =? 0) || (scaled_val =? 0)) ;;
  let! vr := lshr val rshift in
  let! carry := ladd (Z.land vr mask) carry in
  dassert_m (let! lim := lshl 1 shift in ret (carry <=? lim)) ;;
  ret (carry, scaled_val).

(** CtMpDivisor::new, div_impl.rs:40-131 *)
Definition mp_divisor_new (v : mp) (v_decrement : option Z) : M (result mp_divisor divisor_err) :=
  mif mp_is_empty v then ret (Err DivisorIsZero) else
  let! lh :=
    match v_decrement with
    | Some dec =>
      let! '(v_decrement_borrow, v_len, v_head) :=
        zfor 0 (nlimbs v) (fun i '(v_decrement_borrow, v_len, v_head) =>
          let! v_val := load_l v i in
          let! '(v_decrement_borrow, v_val) := ct_sub_l_l v_val v_decrement_borrow in
          let! v_val_is_zero := ct_eq_l_l v_val 0 in
          let! k := ct_find_last_set_byte_l v_val in
          let v_len := lc_select_usize v_val_is_zero (i * LB + k) v_len in
          let v_head := lc_select v_val_is_zero v_val v_head in
          ret (v_decrement_borrow, v_len, v_head)) (dec, 0, 0) in
      mif negb (v_decrement_borrow =? 0) then ret None
      else ret (Some (v_len, v_head))
    | None =>
      let! v_len := find_last_set_byte_mp v in
      let! i := usub (ct_mp_nlimbs v_len) 1 in
      let! v_head := load_l v i in
      ret (Some (v_len, v_head))
    end in
  match lh with
  | None => ret (Err DivisorIsZero)
  | Some (v_len, v_head) =>
    mif negb (ct_is_zero_usize v_len =? 0) then ret (Err DivisorIsZero) else
    let v_nlimbs := ct_mp_nlimbs v_len in
    let! v_head_width := ct_find_last_set_bit_l v_head in
    dassert (negb (v_head_width =? 0)) ;;
    let! scaling_shift := sub32 W v_head_width in
    let! r := sub32 W scaling_shift in
    let scaling_low_src_rshift := r mod W in
    let! scaling_low_src_mask := ct_lsb_mask_l scaling_shift in
    let! first := usub v_nlimbs (Z.min 3 v_nlimbs) in
    let! v_decrement_borrow :=
      match v_decrement with
      | Some dec =>
        zfor 0 first (fun i v_decrement_borrow =>
          let! v_val := load_l_full v i in
          let! '(v_decrement_borrow, _) := ct_sub_l_l v_val v_decrement_borrow in
          ret v_decrement_borrow) dec
      | None => ret 0
      end in
    let! '(_, scaled_v_carry, scaled_v_head, scaled_v_tail_head) :=
      zfor first v_nlimbs (fun i '(v_decrement_borrow, scaled_v_carry, scaled_v_head, _) =>
        let scaled_v_tail_head := scaled_v_head in
        let! v_val := load_l v i in
        let! '(v_decrement_borrow, v_val) := ct_sub_l_l v_val v_decrement_borrow in
        let! '(scaled_v_carry, scaled_v_head) :=
          scale_val_ v_val scaling_shift scaling_low_src_rshift scaling_low_src_mask scaled_v_carry in
        ret (v_decrement_borrow, scaled_v_carry, scaled_v_head, scaled_v_tail_head))
        (v_decrement_borrow, 0, 0, 0) in
    dassert (scaled_v_carry =? 0) ;;
    let! ld := ct_l_divisor_new scaled_v_head in
    match ld with
    | Err _ => panic
    | Ok ld => ret (Ok (mk_divisor v v_decrement v_len scaling_shift scaling_low_src_rshift
                          scaling_low_src_mask ld scaled_v_head scaled_v_tail_head))
    end
  end.

(** CtMpDivisor::make_q_estimate, div_impl.rs:133-199; [u0], [u1], [u2] are
    u_head[0..3]. *)
Definition make_q_estimate (d : mp_divisor) (u0 u1 u2 : Z) : M Z :=
  let! '(q_high_is_zero, u_high) := ct_sub_l_l u0 (dv_head d) in
  let! q_high_is_zero := lc_new q_high_is_zero in
  let u_high := lc_select q_high_is_zero u_high u0 in
  dassert (u_high <? dv_head d) ;;
  let! '(q_low, r) := ct_l_divisor_do_div (dv_ldiv d) (u_high, u1) in
  dassert (negb (lc_unwrap q_high_is_zero =? 0) || (u0 =? dv_head d)) ;;
  let ov := lc_not q_high_is_zero in
  let q := lc_select ov q_low (lnot 0) in
  let! '(r_carry_on_ov, r_on_ov) := ct_add_l_l u1 (dv_head d) in
  let r := lc_select ov r r_on_ov in
  dassert (Z.land r_carry_on_ov (lnot 1) =? 0) ;;
  let! rc := lc_new r_carry_on_ov in
  let r_carry := lc_and ov rc in
  let! '(qvh, qvl) := ct_mul_l_l (dv_tail d) q in
  let! g1 := ct_gt_l_l qvh r in
  let! e1 := ct_eq_l_l qvh r in
  let! g2 := ct_gt_l_l qvl u2 in
  let over_estimated := lc_and (lc_not r_carry) (lc_or g1 (lc_and e1 g2)) in
  lsub q (lc_select over_estimated 0 1).

(** CtMpDivisor::scale_val, div_impl.rs:220-228 *)
Definition scale_val (d : mp_divisor) (val carry : Z) : M (Z * Z) :=
  scale_val_ val (dv_shift d) (dv_rshift d) (dv_mask d) carry.

(** CtMpDivisor::scaled_v_val, div_impl.rs:230-239; returns
    (v_decrement_borrow, carry, scaled_v_val). *)
Definition scaled_v_val (d : mp_divisor) (i v_decrement_borrow carry : Z) : M (Z * Z * Z) :=
  let! v_val := load_l (dv_v d) i in
  let! '(v_decrement_borrow, v_val) := ct_sub_l_l v_val v_decrement_borrow in
  let! '(carry, scaled_v_val) := scale_val d v_val carry in
  ret (v_decrement_borrow, carry, scaled_v_val).

(** CtMpDivisor::unscale_val, div_impl.rs:241-248 *)
Definition unscale_val (d : mp_divisor) (val last_higher_val : Z) : M Z :=
  let! val_low := lshr val (dv_shift d) in
  let! val_high := lshl (Z.land last_higher_val (dv_mask d)) (dv_rshift d) in
  ret (Z.lor val_high val_low).

(** CtMpDivisor::add_scaled_v_val_cond, div_impl.rs:250-265; returns
    (v_decrement_borrow, carry, result). *)
Definition add_scaled_v_val_cond (d : mp_divisor) (op0 i v_decrement_borrow carry cond : Z) : M (Z * Z * Z) :=
  let! '(v_decrement_borrow, carry0, scaled_v_val) := scaled_v_val d i v_decrement_borrow carry in
  let carry0 := lc_select cond 0 carry0 in
  let scaled_v_val := lc_select cond 0 scaled_v_val in
  let! '(carry1, result) := ct_add_l_l op0 scaled_v_val in
  let! carry := ladd carry0 carry1 in
  ret (v_decrement_borrow, carry, result).

(** CtMpDivisor::sub_scaled_qv_val, div_impl.rs:267-280; returns
    (v_decrement_borrow, scaled_v_carry, borrow, result). *)
Definition sub_scaled_qv_val (d : mp_divisor) (op0 i q v_decrement_borrow scaled_v_carry borrow : Z)
  : M (Z * Z * Z * Z) :=
  let! '(v_decrement_borrow, scaled_v_carry, scaled_v_val) :=
    scaled_v_val d i v_decrement_borrow scaled_v_carry in
  let! '(borrow, result) := ct_mul_sub_l_l_l_b op0 q scaled_v_val borrow in
  ret (v_decrement_borrow, scaled_v_carry, borrow, result).

(** The block storing one limb of the quotient, div_impl.rs:420-428, 917-925,
    1320-1328, 1436-1444; the flag says that the function returns
    [InsufficientQuotientSpace] at this point. *)
Definition store_q (q_out : option mp) (j q over_estimated : Z) : M (option mp * bool) :=
  match q_out with
  | None => ret (None, false)
  | Some q_out =>
    let! q := lsub q (lc_select over_estimated 0 1) in
    mif negb (j =? nlimbs q_out) then
      dassert (j <? nlimbs q_out) ;;
      let! q_out := store_l q_out j q in
      ret (Some q_out, false)
    else mif negb (q =? 0) then ret (Some q_out, true) else ret (Some q_out, false)
  end.

(** [q_out.clear_bytes_above(n)] on the optional quotient argument, div_impl.rs:324,332,742,750,1178,1186. *)
Definition q_clear_above (q_out : option mp) (n : Z) : M (option mp) :=
  match q_out with
  | None => ret None
  | Some q_out => let! q_out := clear_bytes_above q_out n in ret (Some q_out)
  end.
(** The length check on the optional quotient argument, div_impl.rs:310-320,
    719-729, 1159-1169. *)
Definition q_too_short (q_out : option mp) (v_len u_len : Z) : M bool :=
  match q_out with
  | None => ret false
  | Some q_out => mif mp_len q_out + v_len <? u_len then ret true else ret false
  end.

(** A zero buffer of the kind of [b], [nbytes] bytes long: the u_pad of
    div_impl.rs:354-368. *)
Definition mp_zeros_like (b : mp) (nbytes : Z) : mp :=
  match b with
  | BE _ => BE (zrepeat 0 nbytes)
  | LE _ => LE (zrepeat 0 nbytes)
  | NE _ => NE (zrepeat 0 (ne_elements_for_len nbytes))
  end.

(** One iteration of the division loop, div_impl.rs:386-439, on the composite
    [u_parts].  The flag in the state says that the function has returned an
    error. *)
Definition div_step (d : mp_divisor) (v_nlimbs j : Z) (st : list cseg * option mp * bool)
  : M (list cseg * option mp * bool) :=
  let '(u_parts, q_out, failed) := st in
  if failed then ret st else
  let! u_h := composite_load u_parts (v_nlimbs + j) in
  let! u_l := composite_load u_parts (v_nlimbs + j - 1) in
  let! u_tail_high :=
    mif 2 <=? v_nlimbs + j then composite_load u_parts (v_nlimbs + j - 2) else ret 0 in
  let! q := make_q_estimate d u_h u_l u_tail_high in
  let! '(u_parts, _, scaled_v_carry, borrow) :=
    zfor 0 v_nlimbs (fun i '(u_parts, v_decrement_borrow, scaled_v_carry, borrow) =>
      let! u_val := composite_load u_parts (j + i) in
      let! '(v_decrement_borrow, scaled_v_carry, borrow, u_val) :=
        sub_scaled_qv_val d u_val i q v_decrement_borrow scaled_v_carry borrow in
      let! u_parts := composite_store u_parts (j + i) u_val in
      ret (u_parts, v_decrement_borrow, scaled_v_carry, borrow)) (u_parts, dv_dec0 d, 0, 0) in
  dassert (scaled_v_carry =? 0) ;;
  let! u_val := composite_load u_parts (j + v_nlimbs) in
  let! '(borrow, u_val) := ct_sub_l_l u_val borrow in
  let! u_parts := composite_store u_parts (j + v_nlimbs) u_val in
  let! over_estimated := lc_new borrow in
  let! '(q_out, failed) := store_q q_out j q over_estimated in
  if failed then ret (u_parts, q_out, true) else
  let! '(u_parts, _, carry) :=
    zfor 0 v_nlimbs (fun i '(u_parts, v_decrement_borrow, carry) =>
      let! u_val := composite_load u_parts (j + i) in
      let! '(v_decrement_borrow, carry, u_val) :=
        add_scaled_v_val_cond d u_val i v_decrement_borrow carry over_estimated in
      let! u_parts := composite_store u_parts (j + i) u_val in
      ret (u_parts, v_decrement_borrow, carry)) (u_parts, dv_dec0 d, 0) in
  let! u_val := composite_load u_parts (j + v_nlimbs) in
  let! '(_, u_val) := ct_add_l_l u_val carry in
  let! u_parts := composite_store u_parts (j + v_nlimbs) u_val in
  ret (u_parts, q_out, false).

(** The caller's u_h and u_l behind the composite made at div_impl.rs:370. *)
Definition div_parts (u_h : option mp) (u_parts : list cseg) : M (option mp * mp) :=
  match composite_segments u_parts with
  | [u_l; u_h'; _] => ret (match u_h with Some _ => Some u_h' | None => None end, u_l)
  | _ => panic
  end.

(** ct_div_mp_mp, div_impl.rs:288-457; returns (result, u_h, u_l, q_out).  UT is
    one type, so [u_h] and [u_l] are of the same kind. *)
Definition ct_div_mp_mp (u_h : option mp) (u_l : mp) (d : mp_divisor) (q_out : option mp)
  : M (result unit div_err * option mp * mp * option mp) :=
  let u_h' := match u_h with Some u_h => u_h | None => mp_zeros_like u_l 0 end in
  let u_len := mp_len u_l + mp_len u_h' in
  let u_nlimbs := ct_mp_nlimbs u_len in
  let v_len := dv_len d in
  let v_nlimbs := ct_mp_nlimbs v_len in
  let! short := q_too_short q_out v_len u_len in
  if short then ret (Err InsufficientQuotientSpace, u_h, u_l, q_out) else
  mif u_len <? v_len then
    let! q_out := q_clear_above q_out 0 in
    ret (Ok tt, u_h, u_l, q_out)
  else
  let! q_out_max_len := usub (u_len + 1) v_len in
  let q_out_max_nlimbs := ct_mp_nlimbs q_out_max_len in
  let! q_out := q_clear_above q_out q_out_max_len in
  let! u_pad_len := mif u_len mod LB =? 0 then ret 0 else usub LB (u_len mod LB) in
  let u_pad := mp_zeros_like u_l (LB + u_pad_len) in
  let! u_parts := composite_new [u_l; u_h'; u_pad] in
  let! '(u_parts, carry) := zfor 0 (u_nlimbs + 1) (fun i '(u_parts, carry) =>
    let! u_val := composite_load u_parts i in
    let! '(carry, u_val) := scale_val d u_val carry in
    let! u_parts := composite_store u_parts i u_val in
    ret (u_parts, carry)) (u_parts, 0) in
  dassert (carry =? 0) ;;
  let! '(u_parts, q_out, failed) :=
    zfor_down 0 q_out_max_nlimbs (div_step d v_nlimbs) (u_parts, q_out, false) in
  if failed then
    let! '(u_h, u_l) := div_parts u_h u_parts in
    ret (Err InsufficientQuotientSpace, u_h, u_l, q_out)
  else
  let! _ := zfor v_nlimbs (u_nlimbs + 1) (fun j _ =>
    dassert_m (let! x := composite_load u_parts j in ret (x =? 0))) tt in
  let! '(u_parts, _) := zfor_down 0 v_nlimbs (fun j '(u_parts, u_h) =>
    let! u_l := composite_load u_parts j in
    let! u_val := unscale_val d u_l u_h in
    let! u_parts := composite_store u_parts j u_val in
    ret (u_parts, u_l)) (u_parts, 0) in
  let! '(u_h, u_l) := div_parts u_h u_parts in
  ret (Ok tt, u_h, u_l, q_out).

(** ct_mod_mp_mp, div_impl.rs:685-694 *)
Definition ct_mod_mp_mp (u_h : option mp) (u_l : mp) (d : mp_divisor) : M (option mp * mp) :=
  let! '(res, u_h, u_l, _) := ct_div_mp_mp u_h u_l d None in
  match res with Ok _ => ret (u_h, u_l) | Err _ => panic end.

(** ** Division of a power of two *)

(** One iteration of the division loop of ct_div_pow2_mp, div_impl.rs:842-952.
    The state is (r_out, r_out_head_shadow[0], r_out_head_shadow[1], q_out,
    failed). *)
Definition div_pow2_step (d : mp_divisor) (v_nlimbs j : Z) (st : mp * Z * Z * option mp * bool)
  : M (mp * Z * Z * option mp * bool) :=
  let '(r_out, sh0, sh1, q_out, failed) := st in
  if failed then ret st else
  let! u_tail_high := mif 2 <? v_nlimbs then load_l_full r_out (v_nlimbs - 2 - 1) else ret 0 in
  let! q := make_q_estimate d sh1 sh0 u_tail_high in
  (* the virtual shift by one limb and the subtraction of q * v *)
  let! '(r_out, v_decrement_borrow, scaled_v_carry, borrow, i, u_val) :=
    mif 2 <=? v_nlimbs then
      let! '(r_out, next_u_val, v_decrement_borrow, scaled_v_carry, borrow) :=
        zfor 0 (v_nlimbs - 2) (fun i '(r_out, next_u_val, v_decrement_borrow, scaled_v_carry, borrow) =>
          let u_val := next_u_val in
          let! next_u_val := load_l_full r_out i in
          let! '(v_decrement_borrow, scaled_v_carry, borrow, u_val) :=
            sub_scaled_qv_val d u_val i q v_decrement_borrow scaled_v_carry borrow in
          let! r_out := store_l_full r_out i u_val in
          ret (r_out, next_u_val, v_decrement_borrow, scaled_v_carry, borrow))
          (r_out, 0, dv_dec0 d, 0, 0) in
      let i := v_nlimbs - 2 in
      let! '(v_decrement_borrow, scaled_v_carry, borrow, u_val) :=
        sub_scaled_qv_val d next_u_val i q v_decrement_borrow scaled_v_carry borrow in
      ret (r_out, v_decrement_borrow, scaled_v_carry, borrow, i + 1, u_val)
    else ret (r_out, dv_dec0 d, 0, 0, 0, 0) in
  dassert (i + 1 =? v_nlimbs) ;;
  let cur_u_val := sh0 in
  let sh0 := u_val in
  let! '(_, scaled_v_carry, borrow, u_val) :=
    sub_scaled_qv_val d cur_u_val i q v_decrement_borrow scaled_v_carry borrow in
  dassert (scaled_v_carry =? 0) ;;
  let cur_u_val := sh1 in
  let sh1 := u_val in
  let! '(borrow, u_val) := ct_sub_l_l cur_u_val borrow in
  dassert (negb (borrow =? 0) || (u_val =? 0)) ;;
  let! over_estimated := lc_new borrow in
  let! '(q_out, failed) := store_q q_out j q over_estimated in
  if failed then ret (r_out, sh0, sh1, q_out, true) else
  (* the addition of v if q has been estimated one too large *)
  let! '(r_out, v_decrement_borrow, carry) :=
    zfor 0 (v_nlimbs - 2) (fun i '(r_out, v_decrement_borrow, carry) =>
      let! u_val := load_l_full r_out i in
      let! '(v_decrement_borrow, carry, u_val) :=
        add_scaled_v_val_cond d u_val i v_decrement_borrow carry over_estimated in
      let! r_out := store_l_full r_out i u_val in
      ret (r_out, v_decrement_borrow, carry)) (r_out, dv_dec0 d, 0) in
  let i := Z.max 0 (v_nlimbs - 2) in
  let overlap := Z.min v_nlimbs 2 in
  let! '(sh, _, _, i) := zfor 0 overlap (fun k '(sh, v_decrement_borrow, carry, i) =>
    let! k := usub (2 + k) overlap in
    let! u_val := znth sh k in
    let! '(v_decrement_borrow, carry, u_val) :=
      add_scaled_v_val_cond d u_val i v_decrement_borrow carry over_estimated in
    let! sh := zupd sh k u_val in
    ret (sh, v_decrement_borrow, carry, i + 1)) ([sh0; sh1], v_decrement_borrow, carry, i) in
  dassert (i =? v_nlimbs) ;;
  ret (r_out, nth 0 sh 0, nth 1 sh 0, q_out, false).

(** The dividend's length in bytes, div_impl.rs:713. *)
Definition virtual_pow2_len (u_pow2_exp : Z) : M Z :=
  let! x := uadd u_pow2_exp 1 in
  let! x := uadd x 8 in
  let! x := usub x 1 in
  ret (x / 8).

(** ct_div_pow2_mp, div_impl.rs:702-980; returns (result, r_out, q_out). *)
Definition ct_div_pow2_mp (u_pow2_exp : Z) (r_out : mp) (d : mp_divisor) (q_out : option mp)
  : M (result unit div_err * mp * option mp) :=
  let! virtual_u_len := virtual_pow2_len u_pow2_exp in
  let virtual_u_nlimbs := ct_mp_nlimbs virtual_u_len in
  let v_len := dv_len d in
  let v_nlimbs := ct_mp_nlimbs v_len in
  let! short := q_too_short q_out v_len virtual_u_len in
  if short then ret (Err InsufficientQuotientSpace, r_out, q_out) else
  mif mp_len r_out <? Z.min v_len virtual_u_len then
    ret (Err InsufficientRemainderSpace, r_out, q_out)
  else
  let! r_out := clear_bytes_above r_out 0 in
  let u_high_shift := u_pow2_exp mod W in
  let! u_high := lshl 1 u_high_shift in
  mif virtual_u_len <? v_len then
    let! i := usub virtual_u_nlimbs 1 in
    let! r_out := store_l r_out i u_high in
    let! q_out := q_clear_above q_out 0 in
    ret (Ok tt, r_out, q_out)
  else
  let! q_out_max_len := usub (virtual_u_len + 1) v_len in
  let q_out_max_nlimbs := ct_mp_nlimbs q_out_max_len in
  let! q_out := q_clear_above q_out q_out_max_len in
  let! '(scaled_u_head_carry, scaled_u_head_low) := scale_val d u_high 0 in
  let! '(scaled_u_head_carry, scaled_u_head_high) := scale_val d 0 scaled_u_head_carry in
  dassert (scaled_u_head_carry =? 0) ;;
  dassert ((v_nlimbs + q_out_max_nlimbs =? virtual_u_nlimbs + 1) ||
           (v_nlimbs + q_out_max_nlimbs =? virtual_u_nlimbs)) ;;
  let! '(sh0, sh1) :=
    mif v_nlimbs + q_out_max_nlimbs =? virtual_u_nlimbs then
      dassert (scaled_u_head_high =? 0) ;;
      ret (0, scaled_u_head_low)
    else ret (scaled_u_head_low, scaled_u_head_high) in
  let! '(r_out, sh0, sh1, q_out, failed) :=
    zfor_down 0 q_out_max_nlimbs (div_pow2_step d v_nlimbs) (r_out, sh0, sh1, q_out, false) in
  if failed then ret (Err InsufficientQuotientSpace, r_out, q_out) else
  dassert ((1 <? v_nlimbs) || (sh0 =? 0)) ;;
  let! '(r_out, u_h) := zfor 0 (Z.min v_nlimbs 2) (fun k '(r_out, u_h) =>
    let! u_l := znth [sh0; sh1] (2 - 1 - k) in
    let! u_val := unscale_val d u_l u_h in
    let! i := usub (v_nlimbs - 1) k in
    let! r_out := store_l r_out i u_val in
    ret (r_out, u_l)) (r_out, 0) in
  let! '(r_out, _) := zfor_down 2 v_nlimbs (fun j '(r_out, u_h) =>
    let! u_l := load_l_full r_out (j - 2) in
    let! u_val := unscale_val d u_l u_h in
    let! r_out := store_l_full r_out (j - 2) u_val in
    ret (r_out, u_l)) (r_out, u_h) in
  ret (Ok tt, r_out, q_out).

(** ct_mod_pow2_mp, div_impl.rs:1108-1127 *)
Definition ct_mod_pow2_mp (u_pow2_exp : Z) (r_out : mp) (d : mp_divisor) : M (result unit div_err * mp) :=
  let! '(res, r_out, _) := ct_div_pow2_mp u_pow2_exp r_out d None in
  match res with Err InsufficientQuotientSpace => panic | _ => ret (res, r_out) end.

(** ** Division of a left-shifted dividend *)

(** Limb [p] of the dividend of the first step of ct_div_lshifted_mp_mp, as
    needed for the quotient estimate, div_impl.rs:1272-1281: from the shadow, from
    [u] or zero.  The two loops there run through the positions downwards; the
    model takes the decision for each position. *)
Definition lsh_head (u : mp) (sh : list Z) (u_nlimbs p : Z) : M Z :=
  mif u_nlimbs - 1 <=? p then znth sh (p - (u_nlimbs - 1))
  else mif 0 <=? p then load_l_full u p else ret 0.

(** One iteration of the first division loop of ct_div_lshifted_mp_mp,
    div_impl.rs:1264-1356.  The state is (u, u_head_high_shadow, q_out, failed). *)
Definition div_lshifted_step1 (d : mp_divisor) (v_nlimbs u_nlimbs tail_nlimbs j : Z)
  (st : mp * list Z * option mp * bool) : M (mp * list Z * option mp * bool) :=
  let '(u, sh, q_out, failed) := st in
  if failed then ret st else
  let! u0 := lsh_head u sh u_nlimbs (v_nlimbs + j) in
  let! u1 := lsh_head u sh u_nlimbs (v_nlimbs + j - 1) in
  let! u2 := lsh_head u sh u_nlimbs (v_nlimbs + j - 2) in
  let! q := make_q_estimate d u0 u1 u2 in
  (* the index from which on the limbs are found in the shadow *)
  let mid := Z.max 0 (Z.min v_nlimbs (u_nlimbs - 1 - j)) in
  let! '(u, v_decrement_borrow, scaled_v_carry, borrow) :=
    zfor 0 mid (fun i '(u, v_decrement_borrow, scaled_v_carry, borrow) =>
      let! u_val := load_l_full u (j + i) in
      let! '(v_decrement_borrow, scaled_v_carry, borrow, u_val) :=
        sub_scaled_qv_val d u_val i q v_decrement_borrow scaled_v_carry borrow in
      let! u := store_l_full u (j + i) u_val in
      ret (u, v_decrement_borrow, scaled_v_carry, borrow)) (u, dv_dec0 d, 0, 0) in
  let! '(sh, _, scaled_v_carry, borrow) :=
    zfor mid v_nlimbs (fun i '(sh, v_decrement_borrow, scaled_v_carry, borrow) =>
      let! k := usub (j + i) (u_nlimbs - 1) in
      let! u_val := znth sh k in
      let! '(v_decrement_borrow, scaled_v_carry, borrow, u_val) :=
        sub_scaled_qv_val d u_val i q v_decrement_borrow scaled_v_carry borrow in
      let! sh := zupd sh k u_val in
      ret (sh, v_decrement_borrow, scaled_v_carry, borrow)) (sh, v_decrement_borrow, scaled_v_carry, borrow) in
  dassert (scaled_v_carry =? 0) ;;
  let! '(u, sh, borrow) :=
    mif j + v_nlimbs <? u_nlimbs - 1 then
      let! u_val := load_l_full u (j + v_nlimbs) in
      let! '(borrow, u_val) := ct_sub_l_l u_val borrow in
      let! u := store_l_full u (j + v_nlimbs) u_val in
      ret (u, sh, borrow)
    else
      let! k := usub (j + v_nlimbs) (u_nlimbs - 1) in
      let! u_val := znth sh k in
      let! '(borrow, u_val) := ct_sub_l_l u_val borrow in
      let! sh := zupd sh k u_val in
      ret (u, sh, borrow) in
  let! over_estimated := lc_new borrow in
  let! '(q_out, failed) := store_q q_out (tail_nlimbs + j) q over_estimated in
  if failed then ret (u, sh, q_out, true) else
  let! '(u, v_decrement_borrow, carry) :=
    zfor 0 mid (fun i '(u, v_decrement_borrow, carry) =>
      let! u_val := load_l_full u (j + i) in
      let! '(v_decrement_borrow, carry, u_val) :=
        add_scaled_v_val_cond d u_val i v_decrement_borrow carry over_estimated in
      let! u := store_l_full u (j + i) u_val in
      ret (u, v_decrement_borrow, carry)) (u, dv_dec0 d, 0) in
  let! '(sh, _, carry) :=
    zfor mid v_nlimbs (fun i '(sh, v_decrement_borrow, carry) =>
      let! k := usub (j + i) (u_nlimbs - 1) in
      let! u_val := znth sh k in
      let! '(v_decrement_borrow, carry, u_val) :=
        add_scaled_v_val_cond d u_val i v_decrement_borrow carry over_estimated in
      let! sh := zupd sh k u_val in
      ret (sh, v_decrement_borrow, carry)) (sh, v_decrement_borrow, carry) in
  mif j + v_nlimbs <? u_nlimbs - 1 then
    let! u_val := load_l_full u (j + v_nlimbs) in
    let! '(_, u_val) := ct_add_l_l u_val carry in
    let! u := store_l_full u (j + v_nlimbs) u_val in
    ret (u, sh, q_out, false)
  else
    let! k := usub (j + v_nlimbs) (u_nlimbs - 1) in
    let! u_val := znth sh k in
    let! '(_, u_val) := ct_add_l_l u_val carry in
    let! sh := zupd sh k u_val in
    ret (u, sh, q_out, false).

(** One iteration of the second division loop of ct_div_lshifted_mp_mp,
    div_impl.rs:1382-1462.  The state is (u, u_high_shadow, q_out, failed). *)
Definition div_lshifted_step2 (d : mp_divisor) (v_nlimbs j : Z) (st : mp * Z * option mp * bool)
  : M (mp * Z * option mp * bool) :=
  let '(u, u_high_shadow, q_out, failed) := st in
  if failed then ret st else
  let! u1 := mif 2 <=? v_nlimbs then load_l_full u (v_nlimbs - 2) else ret 0 in
  let! u2 := mif 3 <=? v_nlimbs then load_l_full u (v_nlimbs - 3) else ret 0 in
  let! q := make_q_estimate d u_high_shadow u1 u2 in
  let! last := usub v_nlimbs 1 in
  let! '(u, next_u_val, v_decrement_borrow, scaled_v_carry, borrow) :=
    zfor 0 last (fun i '(u, next_u_val, v_decrement_borrow, scaled_v_carry, borrow) =>
      let u_val := next_u_val in
      let! next_u_val := load_l_full u i in
      let! '(v_decrement_borrow, scaled_v_carry, borrow, u_val) :=
        sub_scaled_qv_val d u_val i q v_decrement_borrow scaled_v_carry borrow in
      let! u := store_l_full u i u_val in
      ret (u, next_u_val, v_decrement_borrow, scaled_v_carry, borrow)) (u, 0, dv_dec0 d, 0, 0) in
  let u_val := next_u_val in
  let next_u_val := u_high_shadow in
  let! '(_, scaled_v_carry, borrow, u_val) :=
    sub_scaled_qv_val d u_val last q v_decrement_borrow scaled_v_carry borrow in
  dassert (scaled_v_carry =? 0) ;;
  let u_high_shadow := u_val in
  let! '(borrow, _) := ct_sub_l_l next_u_val borrow in
  let! over_estimated := lc_new borrow in
  let! '(q_out, failed) := store_q q_out j q over_estimated in
  if failed then ret (u, u_high_shadow, q_out, true) else
  let! '(u, v_decrement_borrow, carry) :=
    zfor 0 last (fun i '(u, v_decrement_borrow, carry) =>
      let! u_val := load_l_full u i in
      let! '(v_decrement_borrow, carry, u_val) :=
        add_scaled_v_val_cond d u_val i v_decrement_borrow carry over_estimated in
      let! u := store_l_full u i u_val in
      ret (u, v_decrement_borrow, carry)) (u, dv_dec0 d, 0) in
  let! '(_, _, u_val) :=
    add_scaled_v_val_cond d u_high_shadow last v_decrement_borrow carry over_estimated in
  ret (u, u_val, q_out, false).

(** ct_div_lshifted_mp_mp, div_impl.rs:1131-1486; returns (result, u, q_out). *)
Definition ct_div_lshifted_mp_mp (u : mp) (u_in_len u_lshift_len : Z) (d : mp_divisor) (q_out : option mp)
  : M (result unit div_err * mp * option mp) :=
  dassert (u_in_len <=? mp_len u) ;;
  let! virtual_u_in_len := uadd u_in_len u_lshift_len in
  let v_len := dv_len d in
  let v_nlimbs := ct_mp_nlimbs v_len in
  let! short := q_too_short q_out v_len virtual_u_in_len in
  if short then ret (Err InsufficientQuotientSpace, u, q_out) else
  mif mp_len u <? Z.min v_len virtual_u_in_len then
    ret (Err InsufficientRemainderSpace, u, q_out)
  else
  mif virtual_u_in_len <? v_len then
    let! distance := umul 8 u_lshift_len in
    let! '(u, _) := ct_lshift_mp u distance in
    let! q_out := q_clear_above q_out 0 in
    ret (Ok tt, u, q_out)
  else
  let! x := uadd virtual_u_in_len 1 in
  let! q_out_max_len := usub x v_len in
  let! q_out_max_nlimbs := unlimbs q_out_max_len in
  let! q_out := q_clear_above q_out q_out_max_len in
  let head_len := u_lshift_len mod LB in
  let! tail_len := usub u_lshift_len head_len in
  let! room := usub (mp_len u) u_in_len in
  let! room := usub (room + LB) head_len in
  let! room := usub (ct_mp_nlimbs (room + 1)) 1 in
  let head_len := Z.min (room * LB) tail_len + head_len in
  dassert (head_len mod LB =? u_lshift_len mod LB) ;;
  let! tail_len := usub u_lshift_len head_len in
  let! '(u, out) := ct_lshift_mp u (8 * head_len) in
  let partial_len := mp_len u mod LB in
  let u_nlimbs := ct_mp_nlimbs (mp_len u) in
  let! last := usub u_nlimbs 1 in
  let! '(sh0, sh1) :=
    mif negb (partial_len =? 0) then
      let! sh1 := lshr out (8 * (LB - partial_len)) in
      let! sh0 := lshl out (8 * partial_len) in
      let! x := load_l u last in
      ret (Z.lor sh0 x, sh1)
    else
      let! x := load_l u last in
      ret (x, out) in
  let! '(u, carry) := zfor 0 last (fun i '(u, carry) =>
    let! u_val := load_l_full u i in
    let! '(carry, u_val) := scale_val d u_val carry in
    let! u := store_l_full u i u_val in
    ret (u, carry)) (u, 0) in
  let! '(carry, sh0) := scale_val d sh0 carry in
  let! '(carry, sh1) := scale_val d sh1 carry in
  let sh := [sh0; sh1; carry] in
  let tail_nlimbs := tail_len / LB in
  let! q_out_head_nlimbs := usub q_out_max_nlimbs tail_nlimbs in
  let! '(u, sh, q_out, failed) :=
    zfor_down 0 q_out_head_nlimbs (div_lshifted_step1 d v_nlimbs u_nlimbs tail_nlimbs) (u, sh, q_out, false) in
  if failed then ret (Err InsufficientQuotientSpace, u, q_out) else
  dassert (nth 2 sh 0 =? 0) ;;
  dassert (nth 1 sh 0 =? 0) ;;
  let! u :=
    mif v_nlimbs <? u_nlimbs then
      dassert (nth 0 sh 0 =? 0) ;;
      store_l u last 0
    else ret u in
  let! _ := zfor v_nlimbs last (fun i _ =>
    dassert_m (let! x := load_l_full u i in ret (x =? 0))) tt in
  let! u_high_shadow :=
    mif v_nlimbs - 1 =? u_nlimbs - 1 then ret (nth 0 sh 0) else load_l_full u (v_nlimbs - 1) in
  let! '(u, u_high_shadow, q_out, failed) :=
    zfor_down 0 tail_nlimbs (div_lshifted_step2 d v_nlimbs) (u, u_high_shadow, q_out, false) in
  if failed then ret (Err InsufficientQuotientSpace, u, q_out) else
  let! u_val := unscale_val d u_high_shadow 0 in
  let! u := store_l u (v_nlimbs - 1) u_val in
  let! '(u, _) := zfor_down 0 (v_nlimbs - 1) (fun j '(u, u_h) =>
    let! u_l := load_l_full u j in
    let! u_val := unscale_val d u_l u_h in
    let! u := store_l u j u_val in
    ret (u, u_l)) (u, u_high_shadow) in
  ret (Ok tt, u, q_out).

(** ct_mod_lshifted_mp_mp, div_impl.rs:1629-1652 *)
Definition ct_mod_lshifted_mp_mp (u : mp) (u_in_len u_lshift_len : Z) (d : mp_divisor)
  : M (result unit div_err * mp) :=
  let! '(res, u, _) := ct_div_lshifted_mp_mp u u_in_len u_lshift_len d None in
  match res with Err InsufficientQuotientSpace => panic | _ => ret (res, u) end.

(** ** Division by a single limb *)

(** ct_div_mp_l, div_impl.rs:1658-1695; returns (result, q_out). *)
Definition ct_div_mp_l (u : mp) (v : ct_l_divisor) (q_out : option mp)
  : M (result Z div_err * option mp) :=
  let u_nlimbs := ct_mp_nlimbs (mp_len u) in
  mif u_nlimbs =? 0 then ret (Ok 0, q_out) else
  (* [inl]: return early *)
  let! st :=
    match q_out with
    | None => ret (inr None)
    | Some q =>
      let! v_len := ct_find_last_set_byte_l (ld_v v) in
      mif mp_len q + v_len <? mp_len u + 1 then
        ret (inl (Err InsufficientQuotientSpace, Some q))
      else mif mp_len u <? v_len then
        let! q := clear_bytes_above q 0 in
        let! x := load_l u 0 in
        ret (inl (Ok x, Some q))
      else
      let! n := usub (mp_len u) v_len in
      let! q := clear_bytes_above q (n + 1) in
      ret (inr (Some q))
    end in
  match st with
  | inl r => ret r
  | inr q_out =>
    let! '(q_out, u_h) := zfor_down 0 u_nlimbs (fun j '(q_out, u_h) =>
      let! u_l := load_l u j in
      let! '(q_val, r) := ct_l_divisor_do_div v (u_h, u_l) in
      match q_out with
      | None => ret (None, r)
      | Some q => let! q := store_l q j q_val in ret (Some q, r)
      end) (q_out, 0) in
    ret (Ok u_h, q_out)
  end.

(** ct_mod_mp_l, div_impl.rs:1697-1707 *)
Definition ct_mod_mp_l (u : mp) (v : ct_l_divisor) : M Z :=
  let! '(res, _) := ct_div_mp_l u v None in
  match res with Ok r => ret r | Err _ => panic end.

End Model.
