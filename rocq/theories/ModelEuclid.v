(** Model of euclid_impl.rs: greatest common divisors and inversion modulo odd numbers.  A [[LimbType; 2]; 2] becomes a
    pair of rows, a closure updating captured state becomes a function on that state. *)
From Coq Require Import ZArith List Bool.
Require Import Verif.Spec Verif.Monad Verif.ModelLimb Verif.ModelBuf Verif.ModelCmp Verif.ModelAdd Verif.ModelShift Verif.ModelMont.
Import ListNotations.
Open Scope Z_scope.

Section Model.
Context {c : cfg}.

(** One row of a TransitionMatrix, euclid_impl.rs:59-62, with its shift, and one row of the masks computed by t_is_neg_mask. *)
Record trow := mk_trow { tf : Z; tg : Z; tsh : Z }.
(** TransitionMatrix, euclid_impl.rs:59-62: the rows for f and g. *)
Record tmat := mk_tmat { row0 : trow; row1 : trow }.
(** identity, euclid_impl.rs:65-70 *)
Definition tm_identity : tmat := mk_tmat (mk_trow 1 0 0) (mk_trow 0 1 0).

(** The computation of one entry of the new second row in push_transition, euclid_impl.rs:92-101. *)
Definition push_entry (case0 case0_mask t0_mask row_shift_diff t0j t1j : Z) : M Z :=
  let t0j := Z.lxor t0j case0_mask in
  let t0j := lwadd t0j (lc_unwrap case0) in
  let t0j := Z.land t0j t0_mask in
  let! s := lshl t0j row_shift_diff in
  ret (lwadd t1j s).
(** push_transition, euclid_impl.rs:73-104 *)
Definition push_transition (m : tmat) (case0 g0 : Z) : M tmat :=
  let '(mk_tmat (mk_trow a0 b0 s0) (mk_trow a1 b1 s1)) := m in
  let! row_shift_diff := lsub s1 s0 in
  let r0 := mk_trow (lc_select case0 a0 a1) (lc_select case0 b0 b1) (lc_select case0 s0 s1) in
  let case0_mask := lc_select case0 0 (lnot 0) in
  let t0_mask := lc_select case0 (lc_select g0 0 (lnot 0)) (lnot 0) in
  let! a := push_entry case0 case0_mask t0_mask row_shift_diff a0 a1 in
  let! b := push_entry case0 case0_mask t0_mask row_shift_diff b0 b1 in
  let! s := ladd s1 1 in
  ret (mk_tmat r0 (mk_trow a b s)).

(** The masks of one row in t_is_neg_mask, euclid_impl.rs:479-486. *)
Definition row_neg_mask (r : trow) : M (Z * Z) :=
  let! s := sub32 W 1 in
  let! f := lshr (tf r) s in
  let! f := lc_new f in
  let! s := sub32 W 1 in
  let! g := lshr (tg r) s in
  let! g := lc_new g in
  ret (lc_select f 0 (lnot 0), lc_select g 0 (lnot 0)).
(** t_is_neg_mask, euclid_impl.rs:478-487 *)
Definition t_is_neg_mask (m : tmat) : M ((Z * Z) * (Z * Z)) :=
  let! m0 := row_neg_mask (row0 m) in
  let! m1 := row_neg_mask (row1 m) in
  ret (m0, m1).

(** The state of one row in apply_to_f_g: carry[0], carry[1] and borrow, euclid_impl.rs:129-130. *)
Record rowst := mk_rowst { rs_c0 : Z; rs_c1 : Z; rs_b : Z }.

(** mat_mul_row_compute_limb, euclid_impl.rs:140-170 *)
Definition mat_mul_row_compute_limb (st : rowst) (cur_orig_val last_orig_val : Z * Z) (t_row : trow) (neg_mask : Z * Z) : M (rowst * Z) :=
  let! '(f_carry, result) := ct_mul_l_l (tf t_row) (fst cur_orig_val) in
  let! '(g_carry, result) := ct_mul_add_l_l_l_c result (tg t_row) (snd cur_orig_val) (rs_c0 st) in
  let! '(carry1, carry0) := ct_add_l_l_c f_carry g_carry (rs_c1 st) in
  let! '(f_borrow, result) := ct_sub_l_l result (Z.land (fst last_orig_val) (fst neg_mask)) in
  dassert ((f_borrow =? 0) || (1 <=? result)) ;;
  let! '(g_borrow, result) := ct_sub_l_l result (Z.land (snd last_orig_val) (snd neg_mask)) in
  dassert ((g_borrow =? 0) || (1 <=? result)) ;;
  dassert_m (let! x := ladd f_borrow g_borrow in ret ((x <? 2) || (2 <=? result))) ;;
  dassert (rs_b st <=? 2) ;;
  let! '(borrow0, result) := ct_sub_l_l result (rs_b st) in
  let! x := ladd borrow0 f_borrow in
  let! borrow := ladd x g_borrow in
  dassert (borrow <=? 2) ;;
  ret (mk_rowst carry0 carry1 borrow, result).

(** Shifting a limb right, bits of the next higher one coming in: euclid_impl.rs:190-193 and 222-225. *)
Definition row_shift_limb (s sm last_new_val new_val : Z) : M Z :=
  let! lo := lshr last_new_val s in
  let! d := lsub W s in
  let! hi := lshl new_val (Z.land d sm) in
  ret (Z.lor lo (Z.land hi sm)).

(** row_shift_mask, euclid_impl.rs:124-127 *)
Definition row_shift_mask (s : Z) : M Z :=
  let! nz := ct_is_nonzero_l s in
  let! nz := lc_new nz in
  ret (lc_select nz 0 (lnot 0)).

(** apply_to_f_g, euclid_impl.rs:112-248; returns the new shadow heads and numbers. *)
Definition apply_to_f_g (m : tmat) (masks : (Z * Z) * (Z * Z)) (f_shadow_head : Z * Z) (f : mp) (g_shadow_head : Z * Z) (g : mp) :
    M ((Z * Z) * mp * (Z * Z) * mp) :=
  let '(mask0, mask1) := masks in
  let n := nlimbs f in
  assert (n =? nlimbs g) ;;
  assert (negb (n =? 0)) ;;
  let s0 := tsh (row0 m) in let s1 := tsh (row1 m) in
  let! sm0 := row_shift_mask s0 in
  let! sm1 := row_shift_mask s1 in
  let! '(f, g, st0, st1, last_orig, last_new) :=
    zfor 0 (n - 1) (fun k '(f, g, st0, st1, last_orig, last_new) =>
      let! fv := load_l_full f k in
      let! gv := load_l_full g k in
      let cur_orig := (fv, gv) in
      let! '(st0, new0) := mat_mul_row_compute_limb st0 cur_orig last_orig (row0 m) mask0 in
      let! '(st1, new1) := mat_mul_row_compute_limb st1 cur_orig last_orig (row1 m) mask1 in
      let! '(f, g) := (mif (0 <? k) then
          let! v0 := row_shift_limb s0 sm0 (fst last_new) new0 in
          let! v1 := row_shift_limb s1 sm1 (snd last_new) new1 in
          let! f := store_l_full f (k - 1) v0 in
          let! g := store_l_full g (k - 1) v1 in
          ret (f, g)
        else ret (f, g)) in
      ret (f, g, st0, st1, cur_orig, (new0, new1)))
    (f, g, mk_rowst 0 0 0, mk_rowst 0 0 0, (0, 0), (0, 0)) in
  (* k = 0 *)
  let cur_orig := (fst f_shadow_head, fst g_shadow_head) in
  let! '(st0, new0) := mat_mul_row_compute_limb st0 cur_orig last_orig (row0 m) mask0 in
  let! '(st1, new1) := mat_mul_row_compute_limb st1 cur_orig last_orig (row1 m) mask1 in
  let! v0 := row_shift_limb s0 sm0 (fst last_new) new0 in
  let! v1 := row_shift_limb s1 sm1 (snd last_new) new1 in
  let! '(f, g) := (mif (1 <? n) then
      let! f := store_l_full f (n - 2) v0 in
      let! g := store_l_full g (n - 2) v1 in
      ret (f, g)
    else ret (f, g)) in
  let last_new := (new0, new1) in
  let last_orig := cur_orig in
  (* k = 1 *)
  let cur_orig := (snd f_shadow_head, snd g_shadow_head) in
  let! '(st0, new0) := mat_mul_row_compute_limb st0 cur_orig last_orig (row0 m) mask0 in
  let! '(st1, new1) := mat_mul_row_compute_limb st1 cur_orig last_orig (row1 m) mask1 in
  let! v0 := row_shift_limb s0 sm0 (fst last_new) new0 in
  let! v1 := row_shift_limb s1 sm1 (snd last_new) new1 in
  let! w0 := ct_arithmetic_rshift_l new0 s0 in
  dassert ((w0 =? 0) || (w0 =? lnot 0)) ;;
  let! w1 := ct_arithmetic_rshift_l new1 s1 in
  dassert ((w1 =? 0) || (w1 =? lnot 0)) ;;
  ret ((v0, w0), f, (v1, w1), g).

(** STEPS_PER_BATCH, euclid_impl.rs:490 *)
Definition STEPS_PER_BATCH : Z := W - 2.

(** One iteration of batch_divsteps, euclid_impl.rs:503-525. *)
Definition batch_step (st : Z * tmat * Z * Z) : M (Z * tmat * Z * Z) :=
  let '(delta, m, f_low, g_low) := st in
  let! delta_is_pos := lc_new (Z.shiftr ((- delta) mod 2 ^ UW) (UW - 1)) in
  let nonpos := (delta =? 0) || (2 ^ (UW - 1) - 1 <? delta) in
  dassert (nonpos || (lc_unwrap delta_is_pos =? 1)) ;;
  dassert (negb nonpos || (lc_unwrap delta_is_pos =? 0)) ;;
  let! g0 := lc_new (Z.land g_low 1) in
  let case0 := lc_and delta_is_pos g0 in
  let! m := push_transition m case0 g0 in
  let delta := lc_select_usize case0 ((1 + delta) mod 2 ^ UW) ((1 - delta) mod 2 ^ UW) in
  let new_f_low := lc_select case0 f_low g_low in
  let case0_mask := lc_select case0 0 (lnot 0) in
  let f_low_mask := lc_select case0 (lc_select g0 0 (lnot 0)) (lnot 0) in
  let f_low := Z.lxor f_low case0_mask in
  let f_low := lwadd f_low (lc_unwrap case0) in
  let f_low := Z.land f_low f_low_mask in
  let! new_g_low := ct_arithmetic_rshift_l (lwadd g_low f_low) 1 in
  ret (delta, m, new_f_low, new_g_low).
(** batch_divsteps, euclid_impl.rs:495-529 *)
Definition batch_divsteps (delta f_low g_low : Z) : M (Z * tmat) :=
  dassert (Z.land f_low 1 =? 1) ;;
  let! '(delta, m, _, _) := zfor 0 STEPS_PER_BATCH (fun _ => batch_step) (delta, tm_identity, f_low, g_low) in
  ret (delta, m).

(** nbatches, euclid_impl.rs:531-544; here the usize additions and multiplications may overflow. *)
Definition nbatches (len : Z) : M Z :=
  let! x := ovf UW (len * 8) in
  let! nbits := ovf UW (x + 1) in
  let! d := ovf UW (nbits + 1) in
  let! x := ovf UW (49 * d) in
  let! nsteps := (mif (d <? 46) then let! y := ovf UW (x + 80) in ret (y / 17)
                  else let! y := ovf UW (x + 57) in ret (y / 17)) in
  let! x := ovf UW (nsteps + STEPS_PER_BATCH) in
  let! x := usub x 1 in
  ret (x / STEPS_PER_BATCH).

(** ct_gcd_ext_odd_mp_mp, euclid_impl.rs:546-600.  The closure becomes a function updating a state; returns the choice, f,
    g and that state. *)
Definition ct_gcd_ext_odd_mp_mp {S} (update_ext_state : tmat -> (Z * Z) * (Z * Z) -> S -> M S) (f g : mp) (ext : S) : M (Z * mp * mp * S) :=
  let n := nlimbs f in
  dassert (n =? nlimbs g) ;;
  dassert (negb (n =? 0)) ;;
  dassert_m (let! f0 := load_l f 0 in ret (Z.land f0 1 =? 1)) ;;
  let! nb := nbatches (Z.max (mp_len f) (mp_len g)) in
  let! h := usub n 1 in
  let! fh := load_l f h in
  let! gh := load_l g h in
  let! '(delta, fsh, f, gsh, g, ext) :=
    zfor 0 nb (fun _ '(delta, fsh, f, gsh, g, ext) =>
      let! '(f_low, g_low) := (mif (1 <? n) then
          let! a := load_l_full f 0 in
          let! b := load_l_full g 0 in
          ret (a, b)
        else ret (fst fsh, fst gsh)) in
      dassert (Z.land f_low 1 =? 1) ;;
      let! '(delta, m) := batch_divsteps delta f_low g_low in
      let! masks := t_is_neg_mask m in
      let! '(fsh, f, gsh, g) := apply_to_f_g m masks fsh f gsh g in
      let! ext := update_ext_state m masks ext in
      ret (delta, fsh, f, gsh, g, ext))
    (1, (fh, 0), f, (gh, 0), g, ext) in
  dassert (fst gsh =? 0) ;;
  let! g := store_l g (n - 1) 0 in
  dassert (snd gsh =? 0) ;;
  let! _ := zfor 0 n (fun k (_ : unit) => dassert_m (let! v := load_l g k in ret (v =? 0))) tt in
  dassert ((snd fsh =? 0) || (snd fsh =? lnot 0)) ;;
  let! s := sub32 W 1 in
  let! neg := lshr (snd fsh) s in
  let! f_is_neg := lc_new neg in
  let! hm := partial_high_mask f in
  let! f := store_l f (n - 1) (Z.land (fst fsh) hm) in
  ret (f_is_neg, f, g, ext).

(** CtGcdOddMpMpError, CtGcdMpMpError: euclid_impl.rs:603-606, 780-783 *)
Inductive gcd_err := GcdInconsistentOperandLengths | GcdInvalidInputOperandValue | GcdInsufficientResultSpace.

(** ct_gcd_odd_mp_mp, euclid_impl.rs:608-638; returns f and g. *)
Definition ct_gcd_odd_mp_mp (f g : mp) : M (result unit gcd_err * mp * mp) :=
  let! odd := test_bit f 0 in
  mif (lc_unwrap odd =? 0) then ret (Err GcdInvalidInputOperandValue, f, g) else
  let! c0 := len_is_compatible_with f (mp_len g) in
  let! bad := (mif negb c0 then ret true else
               let! c1 := len_is_compatible_with g (mp_len f) in ret (negb c1)) in
  mif bad then ret (Err GcdInconsistentOperandLengths, f, g) else
  let! '(gcd_is_neg, f, g, _) := ct_gcd_ext_odd_mp_mp (fun _ _ (_ : unit) => ret tt) f g tt in
  let neg_mask := lc_select gcd_is_neg 0 (lnot 0) in
  let carry := lc_select gcd_is_neg 0 1 in
  let n := nlimbs f in
  let! '(f, carry) := zfor 0 (n - 1) (fun k '(f, carry) =>
    let! f_val := load_l_full f k in
    let f_val := Z.lxor f_val neg_mask in
    let! '(carry, f_val) := ct_add_l_l f_val carry in
    let! f := store_l_full f k f_val in
    ret (f, carry)) (f, carry) in
  let! h := usub n 1 in
  let! f_val := load_l f h in
  let f_val := Z.lxor f_val neg_mask in
  let! '(_, f_val) := ct_add_l_l f_val carry in
  let! hm := partial_high_mask f in
  let! f := store_l f h (Z.land f_val hm) in
  ret (Ok tt, f, g).

(** ct_gcd_mp_mp, euclid_impl.rs:785-821; the [unwrap()] of the inner call panics on errors. *)
Definition ct_gcd_mp_mp (op0 op1 : mp) : M (result unit gcd_err * mp * mp) :=
  mif mp_is_empty op0 then ret (Err GcdInsufficientResultSpace, op0, op1) else
  let! c0 := len_is_compatible_with op0 (mp_len op1) in
  let! bad := (mif negb c0 then ret true else
               let! c1 := len_is_compatible_with op1 (mp_len op0) in ret (negb c1)) in
  mif bad then ret (Err GcdInconsistentOperandLengths, op0, op1) else
  let! '(op0_is_nonzero, op0_powers_of_two) := ct_find_first_set_bit_mp op0 in
  let! '(op1_is_nonzero, op1_powers_of_two) := ct_find_first_set_bit_mp op1 in
  dassert (negb (lc_unwrap op0_is_nonzero =? 0) || (op0_powers_of_two =? 0)) ;;
  let! lt := ct_lt_usize_usize op1_powers_of_two op0_powers_of_two in
  let op1_has_fewer_powers_of_two := lc_or (lc_not op0_is_nonzero) (lc_and op1_is_nonzero lt) in
  let min_powers_of_two := lc_select_usize op1_has_fewer_powers_of_two op0_powers_of_two op1_powers_of_two in
  let! '(op0, _) := ct_rshift_mp op0 min_powers_of_two in
  let! '(op1, _) := ct_rshift_mp op1 min_powers_of_two in
  let! '(op0, op1) := ct_swap_cond_mp op0 op1 op1_has_fewer_powers_of_two in
  let op0_and_op1_zero := lc_and (lc_not op0_is_nonzero) (lc_not op1_is_nonzero) in
  dassert_m (mif negb (lc_unwrap op0_and_op1_zero =? 0) then ret true else
             let! v := load_l op0 0 in ret (Z.land v 1 =? 1)) ;;
  let! v := load_l op0 0 in
  let! op0 := store_l op0 0 (lc_select op0_and_op1_zero v 1) in
  let! '(r, op0, op1) := ct_gcd_odd_mp_mp op0 op1 in
  match r with
  | Err _ => panic
  | Ok _ =>
    dassert_m (let! z := ct_is_zero_mp op0 in ret (lc_unwrap z =? 0)) ;;
    dassert_m (mif (lc_unwrap op0_and_op1_zero =? 0) then ret true else
               let! o := ct_is_one_mp op0 in ret (negb (lc_unwrap o =? 0))) ;;
    dassert ((lc_unwrap op0_and_op1_zero =? 0) || (min_powers_of_two =? 0)) ;;
    let! '(op0, _) := ct_lshift_mp op0 min_powers_of_two in
    ret (Ok tt, op0, op1)
  end.

(** ** Inversion modulo odd numbers *)

(** mat_mul_row_scale_mod_odd_n_compute_start, euclid_impl.rs:270-289; carry[0], carry[1] go into the row's state, the
    borrow of which starts out as 0 (line 359). *)
Definition mod_row_start (u_first_orig : Z * Z) (t_row : trow) (n0_val neg_n0_inv_mod_l : Z) : M (rowst * redc_kernel) :=
  let! '(carry_i_f, u_i_f) := ct_mul_l_l (tf t_row) (fst u_first_orig) in
  let! '(carry_i_g, u_i) := ct_mul_add_l_l_l_c u_i_f (tg t_row) (snd u_first_orig) 0 in
  let! '(carry1, carry0) := ct_add_l_l carry_i_f carry_i_g in
  dassert (carry1 <=? 1) ;;
  let! k := redc_start (tsh t_row mod 2 ^ 32) u_i n0_val neg_n0_inv_mod_l in
  ret (mk_rowst carry0 carry1 0, k).

(** The subtractions shared by mat_mul_row_scale_mod_odd_n_compute_limb, euclid_impl.rs:315-325, and the final step, euclid_impl.rs:393-405. *)
Definition mod_row_sub (borrow u_i : Z) (u_last_orig_val neg_mask : Z * Z) : M (Z * Z) :=
  let! '(borrow_i_f, u_i) := ct_sub_l_l u_i (Z.land (fst u_last_orig_val) (fst neg_mask)) in
  dassert ((borrow_i_f =? 0) || (1 <=? u_i)) ;;
  let! '(borrow_i_g, u_i) := ct_sub_l_l u_i (Z.land (snd u_last_orig_val) (snd neg_mask)) in
  dassert_m (let! x := ladd borrow_i_f borrow_i_g in ret ((x <? 2) || (2 <=? u_i))) ;;
  dassert (borrow <=? 2) ;;
  let! '(borrow0, u_i) := ct_sub_l_l u_i borrow in
  let! x := ladd borrow0 borrow_i_f in
  let! borrow := ladd x borrow_i_g in
  dassert (borrow <=? 2) ;;
  ret (borrow, u_i).

(** mat_mul_row_scale_mod_odd_n_compute_limb, euclid_impl.rs:292-328 *)
Definition mod_row_limb (st : rowst) (k : redc_kernel) (n_val : Z) (u_cur_orig_val u_last_orig_val : Z * Z) (t_row : trow) (neg_mask : Z * Z) :
    M (rowst * redc_kernel * Z) :=
  let! '(carry_i_f, u_i_f) := ct_mul_l_l (tf t_row) (fst u_cur_orig_val) in
  let! '(carry_i_g, u_i) := ct_mul_add_l_l_l_c u_i_f (tg t_row) (snd u_cur_orig_val) (rs_c0 st) in
  let! '(carry1, carry0) := ct_add_l_l_c carry_i_f carry_i_g (rs_c1 st) in
  let! '(borrow, u_i) := mod_row_sub (rs_b st) u_i u_last_orig_val neg_mask in
  let! '(k, r) := redc_update k u_i n_val in
  ret (mk_rowst carry0 carry1 borrow, k, r).

(** The high limb of a row, euclid_impl.rs:389-423. *)
Definition mod_row_head (st : rowst) (u_last_orig_val neg_mask : Z * Z) : M Z :=
  let! '(borrow, u) := mod_row_sub (rs_b st) (rs_c0 st) u_last_orig_val neg_mask in
  dassert ((rs_c1 st =? 0) || negb (borrow =? 0)) ;;
  dassert_m (let! x := lsub borrow (rs_c1 st) in ret (x <=? 1)) ;;
  dassert_m (let! x := lsub borrow (rs_c1 st) in let! s := sub32 W 1 in let! y := lshr u s in ret (x =? y)) ;;
  ret u.

(** Storing a limb, the highest one masked: euclid_impl.rs:465-469 and 1064-1068.  The latter compares to the number of
    limbs in n, which are as many as in the result. *)
Definition store_high_masked (u : mp) (i v : Z) : M mp :=
  mif negb (i + 1 =? nlimbs u) then store_l_full u i v
  else let! hm := partial_high_mask u in store_l u i (Z.land v hm).

(** u_i_into_range, euclid_impl.rs:446-472 *)
Definition u_i_into_range (u_i : mp) (u_i_sign u_i_geq_n : Z) (n : mp) : M mp :=
  let! neg_n := lc_new u_i_geq_n in
  let neg_n_mask := lc_select neg_n 0 (lnot 0) in
  let neg_n_carry := lc_select neg_n 0 1 in
  let! cond := lc_new (Z.lor u_i_sign u_i_geq_n) in
  let cond_mask := lc_select cond 0 (lnot 0) in
  let! '(u_i, _, _) := zfor 0 (nlimbs n) (fun i '(u_i, neg_n_carry, carry) =>
    let! nv := load_l n i in
    let! '(neg_n_carry, n_val) := ct_add_l_l (Z.lxor nv neg_n_mask) neg_n_carry in
    let! uv := load_l u_i i in
    let! '(carry, v) := ct_add_l_l_c uv (Z.land n_val cond_mask) carry in
    let! u_i := store_high_masked u_i i v in
    ret (u_i, neg_n_carry, carry)) (u_i, neg_n_carry, 0) in
  dassert_m (let! r := ct_gt_mp_mp n u_i in ret (lc_unwrap r =? 1)) ;;
  ret u_i.

(** apply_to_mod_odd_n, euclid_impl.rs:252-476 *)
Definition apply_to_mod_odd_n (m : tmat) (masks : (Z * Z) * (Z * Z)) (u_f u_g n : mp) (neg_n0_inv_mod_l : Z) : M (mp * mp) :=
  let '(mask0, mask1) := masks in
  dassert (negb (mp_is_empty n)) ;;
  let n_nlimbs := nlimbs n in
  dassert (nlimbs u_f =? n_nlimbs) ;;
  dassert_lt u_f n ;;
  dassert (nlimbs u_g =? n_nlimbs) ;;
  dassert_lt u_g n ;;
  let! n0_val := load_l n 0 in
  let! uf0 := load_l u_f 0 in
  let! ug0 := load_l u_g 0 in
  let u_last := (uf0, ug0) in
  let! '(st0, k0) := mod_row_start u_last (row0 m) n0_val neg_n0_inv_mod_l in
  let! '(st1, k1) := mod_row_start u_last (row1 m) n0_val neg_n0_inv_mod_l in
  let! '(u_f, u_g, st0, k0, st1, k1, q0, q1, last_n_val, u_last) :=
    zfor 0 (n_nlimbs - 1) (fun j '(u_f, u_g, st0, k0, st1, k1, q0, q1, last_n_val, u_last) =>
      let! n_val := load_l n (j + 1) in
      let! a := load_l u_f (j + 1) in
      let! b := load_l u_g (j + 1) in
      let u_cur := (a, b) in
      let! '(st0, k0, r0) := mod_row_limb st0 k0 n_val u_cur u_last (row0 m) mask0 in
      let! q0 := geq_kernel_update q0 r0 last_n_val in
      let! '(st1, k1, r1) := mod_row_limb st1 k1 n_val u_cur u_last (row1 m) mask1 in
      let! q1 := geq_kernel_update q1 r1 last_n_val in
      let! u_f := store_l_full u_f j r0 in
      let! u_g := store_l_full u_g j r1 in
      ret (u_f, u_g, st0, k0, st1, k1, q0, q1, n_val, u_cur))
    (u_f, u_g, st0, k0, st1, k1, geq_kernel_new, geq_kernel_new, n0_val, u_last) in
  let j := Z.max 0 (n_nlimbs - 1) in
  dassert (j + 1 =? n_nlimbs) ;;
  let! h0 := mod_row_head st0 u_last mask0 in
  let! h1 := mod_row_head st1 u_last mask1 in
  let! '(u_f_sign, r0) := redc_finish_in_twos_complement k0 h0 in
  let! q0 := geq_kernel_update q0 r0 last_n_val in
  let! hm := partial_high_mask u_f in
  let! u_f := store_l u_f j (Z.land r0 hm) in
  let! '(u_g_sign, r1) := redc_finish_in_twos_complement k1 h1 in
  let! q1 := geq_kernel_update q1 r1 last_n_val in
  let! hm := partial_high_mask u_g in
  let! u_g := store_l u_g j (Z.land r1 hm) in
  let! q0 := geq_kernel_finish q0 in
  let u_f_geq_n := lc_select q0 0 (Z.lxor u_f_sign 1) in
  let! q1 := geq_kernel_finish q1 in
  let u_g_geq_n := lc_select q1 0 (Z.lxor u_g_sign 1) in
  let! u_f := u_i_into_range u_f u_f_sign u_f_geq_n n in
  let! u_g := u_i_into_range u_g u_g_sign u_g_geq_n n in
  ret (u_f, u_g).

(** CtInvModOddMpMpImplError, CtInvModOddMpMpError: euclid_impl.rs:969-975, 1075-1081 *)
Inductive inv_err := InvInvalidModulus | InvInsufficientResultSpace | InvInsufficientScratchSpace | InvInconsistentOperandLengths | InvOperandsNotCoprime.

(** The check that the GCD is one, euclid_impl.rs:1044-1049: [true] if it isn't.  The loop is left on the first unexpected limb. *)
Fixpoint gcd_not_one (k : nat) (i : Z) (f : mp) (expected_val neg_mask : Z) : M bool :=
  match k with
  | O => ret false
  | S k =>
    let! v := load_l_full f i in
    mif negb (v =? expected_val) then ret true else gcd_not_one k (i + 1) f neg_mask neg_mask
  end.

(** The slice of limbs behind a native buffer, as made at euclid_impl.rs:1007, 1010. *)
Definition limbs_of (b : mp) : M (list Z) := match b with NE l => ret l | _ => panic end.

(** ct_inv_mod_odd_mp_mp_impl, euclid_impl.rs:979-1072.  Returns result, op0 and the two scratch slices. *)
Definition ct_inv_mod_odd_mp_mp_impl (result op0 n : mp) (scratch0 scratch1 : list Z) :
    M (Monad.result unit inv_err * mp * mp * list Z * list Z) :=
  let! compat := len_is_compatible_with n (mp_len result) in
  mif negb compat then ret (Err InvInsufficientResultSpace, result, op0, scratch0, scratch1) else
  let! c0 := len_is_compatible_with op0 (mp_len n) in
  let! bad := (mif negb c0 then ret true else
               let! c1 := len_is_compatible_with n (mp_len op0) in ret (negb c1)) in
  mif bad then ret (Err InvInconsistentOperandLengths, result, op0, scratch0, scratch1) else
  let n_nlimbs := ct_mp_nlimbs (mp_len n) in
  mif (zlen scratch0 <? n_nlimbs) then ret (Err InvInsufficientScratchSpace, result, op0, scratch0, scratch1) else
  mif (zlen scratch1 <? n_nlimbs) then ret (Err InvInsufficientScratchSpace, result, op0, scratch0, scratch1) else
  let! neg := ct_montgomery_neg_n0_inv_mod_l_mp n in
  match neg with
  | Err _ => ret (Err InvInvalidModulus, result, op0, scratch0, scratch1)
  | Ok neg_n0_inv_mod_l =>
    let! fw_full := copy_from (NE scratch0) n in
    let! fw := mp_shrink_to fw_full (mp_len n) in
    let! u1_full := clear_bytes_above (NE scratch1) (mp_len n) in
    let! u1 := mp_shrink_to u1_full (mp_len n) in
    let! result_full := clear_bytes_above result 0 in
    let! result := mp_shrink_to result_full (mp_len n) in
    let! n_is_one := ct_is_one_mp n in
    let! u1 := clear_bytes_above u1 0 in
    let! u1 := store_l_full u1 0 (Z.lxor 1 (lc_unwrap n_is_one)) in
    let! '(gcd_is_neg, fw, op0, (result, u1)) :=
      ct_gcd_ext_odd_mp_mp (fun t masks '(result, u1) => apply_to_mod_odd_n t masks result u1 n neg_n0_inv_mod_l) fw op0 (result, u1) in
    let! scratch0 := limbs_of (mp_unshrink fw_full fw) in
    let! scratch1 := limbs_of (mp_unshrink u1_full u1) in
    let neg_mask := lc_select gcd_is_neg 0 (lnot 0) in
    let expected_val := lc_select gcd_is_neg 1 (lnot 0) in
    let n_nlimbs := nlimbs n in
    let! bad := gcd_not_one (Z.to_nat n_nlimbs) 0 fw expected_val neg_mask in
    if bad then ret (Err InvOperandsNotCoprime, mp_unshrink result_full result, op0, scratch0, scratch1) else
    dassert_m (let! z := ct_is_zero_mp result in
               mif (lc_unwrap z =? 0) then ret true else ret (negb (lc_unwrap n_is_one =? 0))) ;;
    let neg_mask := lc_select n_is_one neg_mask 0 in
    let neg_carry := lc_select (lc_and gcd_is_neg (lc_not n_is_one)) 0 1 in
    let! '(result, _, _) := zfor 0 n_nlimbs (fun i '(result, neg_carry, carry) =>
      let! result_val := load_l result i in
      let! '(neg_carry, cond_neg_result_val) := ct_add_l_l (Z.lxor result_val neg_mask) neg_carry in
      let! nv := load_l n i in
      let cond_f_val := Z.land nv neg_mask in
      let! '(carry, result_val) := ct_add_l_l_c cond_f_val cond_neg_result_val carry in
      let! result := store_high_masked result i result_val in
      ret (result, neg_carry, carry)) (result, neg_carry, 0) in
    ret (Ok tt, mp_unshrink result_full result, op0, scratch0, scratch1)
  end.

(** ct_inv_mod_odd_mp_mp, euclid_impl.rs:1083-1118 *)
Definition ct_inv_mod_odd_mp_mp (result op0 n : mp) (scratch0 scratch1 : list Z) :
    M (Monad.result unit inv_err * mp * mp * list Z * list Z) :=
  let! '(r, result, op0, scratch0, scratch1) := ct_inv_mod_odd_mp_mp_impl result op0 n scratch0 scratch1 in
  match r with
  | Err e => ret (Err e, result, op0, scratch0, scratch1)
  | Ok _ =>
    let! z := ct_is_zero_mp result in
    mif negb (lc_unwrap z =? 0) then ret (Err InvOperandsNotCoprime, result, op0, scratch0, scratch1) else
    ret (Ok tt, result, op0, scratch0, scratch1)
  end.

End Model.
