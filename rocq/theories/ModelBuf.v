(** Model of src/limbs_buffer.rs: multiprecision integer buffers.

    The six slice types (big-endian bytes, little-endian bytes, native limbs;
    each shared and mutable) are modelled by their backing slice and a tag.  A
    [&mut] argument becomes an argument and a returned new value. *)
From Coq Require Import ZArith List Bool.
Require Import Verif.Spec Verif.Monad Verif.ModelLimb.
Import ListNotations.
Open Scope Z_scope.

(** MpBigEndianUIntByteSlice (limbs_buffer.rs:1121-1345),
    MpLittleEndianUIntByteSlice (:1347-1570), MpNativeEndianUIntLimbsSlice
    (:1572-1804) and their Mut variants. *)
Inductive mp := BE (bytes : list Z) | LE (bytes : list Z) | NE (limbs : list Z).

(** uN::to_le_bytes: [n] little-endian bytes of [v] (Rust standard library), called at
    limbs_buffer.rs:590, 616. *)
Fixpoint le_bytes (n : nat) (v : Z) : list Z :=
  match n with O => [] | S n => v mod 256 :: le_bytes n (v / 256) end.

Section Model.
Context {c : cfg}.

(** Rust's [+] and [*] on usize where the operands are not bounded by the lengths of buffers: the exponent and the shift distance of
    div_impl.rs:713, 1154, 1176, 1183, 1184 and the length of limbs_buffer.rs:1581, 1682, 1735 are the caller's choice. *)
Definition uadd (a b : Z) : M Z := ovf UW (a + b).
(** The same for [*], div_impl.rs:1154-1184. *)
Definition umul (a b : Z) : M Z := ovf UW (a * b).
(** ct_mp_nlimbs, limbs_buffer.rs:29-31, of such a length. *)
Definition unlimbs (len : Z) : M Z :=
  let! x := uadd len LB in
  let! x := usub x 1 in
  ret (x / LB).
(** ct_mp_nlimbs, limbs_buffer.rs:29-31 *)
Definition ct_mp_nlimbs (len : Z) : Z := (len + LB - 1) / LB.
(** ct_mp_limbs_align_len, limbs_buffer.rs:33-35 *)
Definition ct_mp_limbs_align_len (len : Z) : Z := ct_mp_nlimbs len * LB.

(** LimbType::to_le_bytes (Rust standard library), used at limbs_buffer.rs:590,616. *)
Definition to_le_bytes (v : Z) : list Z := le_bytes (Z.to_nat LB) v.
(** LimbType::to_be_bytes (Rust standard library), used at limbs_buffer.rs:221,247. *)
Definition to_be_bytes (v : Z) : list Z := rev (to_le_bytes v).

(** ** Big-endian byte buffers *)

(** _be_mp_load_l_full, limbs_buffer.rs:66-71 *)
Definition _be_mp_load_l_full (limbs : list Z) (src_end : Z) : M Z :=
  let! src_begin := usub src_end LB in
  let! src := slice limbs src_begin src_end in
  ret (be_val src).
(** _be_mp_load_l_high_partial, limbs_buffer.rs:93-97 *)
Definition _be_mp_load_l_high_partial (limbs : list Z) (src_end : Z) : M Z :=
  let! n := usub LB src_end in
  let! src := slice limbs 0 src_end in
  ret (be_val (splice (zrepeat 0 LB) n src)).
(** be_mp_load_l_full, limbs_buffer.rs:121-125 *)
Definition be_mp_load_l_full (limbs : list Z) (i : Z) : M Z :=
  dassert (i * LB <? zlen limbs) ;;
  let! src_end := usub (zlen limbs) (i * LB) in
  _be_mp_load_l_full limbs src_end.
(** be_mp_load_l, limbs_buffer.rs:148-156 *)
Definition be_mp_load_l (limbs : list Z) (i : Z) : M Z :=
  dassert (i * LB <=? zlen limbs) ;;
  let! src_end := usub (zlen limbs) (i * LB) in
  mif (LB <=? src_end) then _be_mp_load_l_full limbs src_end
  else _be_mp_load_l_high_partial limbs src_end.

(** _be_mp_store_l_full, limbs_buffer.rs:217-222 *)
Definition _be_mp_store_l_full (limbs : list Z) (dst_end value : Z) : M (list Z) :=
  let! dst_begin := usub dst_end LB in
  let! dst := slice limbs dst_begin dst_end in
  ret (splice limbs dst_begin (to_be_bytes value)).
(** _be_mp_store_l_high_partial, limbs_buffer.rs:245-249 *)
Definition _be_mp_store_l_high_partial (limbs : list Z) (dst_end value : Z) : M (list Z) :=
  let! dst := slice limbs 0 dst_end in
  let! n := usub LB dst_end in
  let! src := slice (to_be_bytes value) n LB in
  ret (splice limbs 0 src).
(** be_mp_store_l_full, limbs_buffer.rs:272-276 *)
Definition be_mp_store_l_full (limbs : list Z) (i value : Z) : M (list Z) :=
  dassert (i * LB <? zlen limbs) ;;
  let! dst_end := usub (zlen limbs) (i * LB) in
  _be_mp_store_l_full limbs dst_end value.
(** be_mp_store_l, limbs_buffer.rs:301-310 *)
Definition be_mp_store_l (limbs : list Z) (i value : Z) : M (list Z) :=
  dassert (i * LB <=? zlen limbs) ;;
  let! dst_end := usub (zlen limbs) (i * LB) in
  mif (LB <=? dst_end) then _be_mp_store_l_full limbs dst_end value
  else
    dassert_m (let! h := lshr value (8 * dst_end) in ret (h =? 0)) ;;
    _be_mp_store_l_high_partial limbs dst_end value.

(** be_mp_clear_bytes_above, limbs_buffer.rs:357-363 *)
Definition be_mp_clear_bytes_above (limbs : list Z) (begin : Z) : M (list Z) :=
  mif (zlen limbs <=? begin) then ret limbs else
  let! n := usub (zlen limbs) begin in
  let! dst := slice limbs 0 n in
  ret (splice limbs 0 (zrepeat 0 n)).
(** be_mp_clear_bytes_below, limbs_buffer.rs:389-393 *)
Definition be_mp_clear_bytes_below (limbs : list Z) (end_ : Z) : M (list Z) :=
  let end_ := Z.min end_ (zlen limbs) in
  let! from := usub (zlen limbs) end_ in
  let! dst := slice limbs from (zlen limbs) in
  ret (splice limbs from (zrepeat 0 (zlen dst))).

(** ** Little-endian byte buffers *)

(** _le_mp_load_l_full, limbs_buffer.rs:437-442 *)
Definition _le_mp_load_l_full (limbs : list Z) (src_begin : Z) : M Z :=
  let src_end := src_begin + LB in
  let! src := slice limbs src_begin src_end in
  ret (le_val src).
(** _le_mp_load_l_high_partial, limbs_buffer.rs:463-467.  The destination range
    [..limbs.len() - src_begin] of the LB byte array must exist. *)
Definition _le_mp_load_l_high_partial (limbs : list Z) (src_begin : Z) : M Z :=
  let! n := usub (zlen limbs) src_begin in
  let! dst := slice (zrepeat 0 LB) 0 n in
  let! src := slice limbs src_begin (zlen limbs) in
  ret (le_val (splice (zrepeat 0 LB) 0 src)).
(** le_mp_load_l_full, limbs_buffer.rs:491-495 *)
Definition le_mp_load_l_full (limbs : list Z) (i : Z) : M Z :=
  let src_begin := i * LB in
  dassert (src_begin <? zlen limbs) ;;
  _le_mp_load_l_full limbs src_begin.
(** le_mp_load_l, limbs_buffer.rs:518-526 *)
Definition le_mp_load_l (limbs : list Z) (i : Z) : M Z :=
  let src_begin := i * LB in
  dassert (src_begin <? zlen limbs) ;;
  mif (src_begin + LB <=? zlen limbs) then _le_mp_load_l_full limbs src_begin
  else _le_mp_load_l_high_partial limbs src_begin.

(** _le_mp_store_l_full, limbs_buffer.rs:586-591 *)
Definition _le_mp_store_l_full (limbs : list Z) (dst_begin value : Z) : M (list Z) :=
  let dst_end := dst_begin + LB in
  let! dst := slice limbs dst_begin dst_end in
  ret (splice limbs dst_begin (to_le_bytes value)).
(** _le_mp_store_l_high_partial, limbs_buffer.rs:613-618 *)
Definition _le_mp_store_l_high_partial (limbs : list Z) (dst_begin value : Z) : M (list Z) :=
  let dst_end := zlen limbs in
  let! dst := slice limbs dst_begin dst_end in
  let! n := usub dst_end dst_begin in
  let! src := slice (to_le_bytes value) 0 n in
  ret (splice limbs dst_begin src).
(** le_mp_store_l_full, limbs_buffer.rs:641-645 *)
Definition le_mp_store_l_full (limbs : list Z) (i value : Z) : M (list Z) :=
  let dst_begin := i * LB in
  dassert (dst_begin <? zlen limbs) ;;
  _le_mp_store_l_full limbs dst_begin value.
(** le_mp_store_l, limbs_buffer.rs:670-679 *)
Definition le_mp_store_l (limbs : list Z) (i value : Z) : M (list Z) :=
  let dst_begin := i * LB in
  dassert (dst_begin <? zlen limbs) ;;
  mif (dst_begin + LB <=? zlen limbs) then _le_mp_store_l_full limbs dst_begin value
  else
    dassert_m (let! d := usub (zlen limbs) dst_begin in
               let! h := lshr value (8 * d) in ret (h =? 0)) ;;
    _le_mp_store_l_high_partial limbs dst_begin value.

(** le_mp_clear_bytes_above, limbs_buffer.rs:726-731 *)
Definition le_mp_clear_bytes_above (limbs : list Z) (begin : Z) : M (list Z) :=
  mif (zlen limbs <=? begin) then ret limbs else
  let! dst := slice limbs begin (zlen limbs) in
  ret (splice limbs begin (zrepeat 0 (zlen dst))).
(** le_mp_clear_bytes_below, limbs_buffer.rs:757-760 *)
Definition le_mp_clear_bytes_below (limbs : list Z) (end_ : Z) : M (list Z) :=
  let end_ := Z.min end_ (zlen limbs) in
  let! dst := slice limbs 0 end_ in
  ret (splice limbs 0 (zrepeat 0 (zlen dst))).

(** ** Native limb buffers *)

(** clear_bytes_above, limbs_buffer.rs:1722-1733 *)
Definition ne_mp_clear_bytes_above (limbs : list Z) (begin : Z) : M (list Z) :=
  let begin_limb := begin / LB in
  mif (zlen limbs <=? begin_limb) then ret limbs else
  let begin_in_limb := begin mod LB in
  let! '(limbs, begin_limb) :=
    (mif (negb (begin_in_limb =? 0)) then
       let! mask := ct_lsb_mask_l (8 * begin_in_limb) in
       let! l := znth limbs begin_limb in
       let! limbs := zupd limbs begin_limb (Z.land l mask) in
       ret (limbs, begin_limb + 1)
     else ret (limbs, begin_limb)) in
  let! dst := slice limbs begin_limb (zlen limbs) in
  ret (splice limbs begin_limb (zrepeat 0 (zlen dst))).
(** clear_bytes_below, limbs_buffer.rs:1735-1746 *)
Definition ne_mp_clear_bytes_below (limbs : list Z) (end_ : Z) : M (list Z) :=
  let! end_nlimbs := unlimbs end_ in
  let end_limb := Z.min end_nlimbs (zlen limbs) in
  let end_in_limb := end_ mod LB in
  let! '(limbs, end_limb) :=
    (mif (negb (end_in_limb =? 0)) then
       let! end_limb := usub end_limb 1 in
       let! l := znth limbs end_limb in
       let! l := lshr l (8 * end_in_limb) in
       let! l := lshl l (8 * end_in_limb) in
       let! limbs := zupd limbs end_limb l in
       ret (limbs, end_limb)
     else ret (limbs, end_limb)) in
  let! dst := slice limbs 0 end_limb in
  ret (splice limbs 0 (zrepeat 0 (zlen dst))).

(** ** The MpUIntCommon / MpMutUInt interface *)

(** SUPPORTS_UNALIGNED_BUFFER_LENGTHS, limbs_buffer.rs:1137,1363,1587 *)
Definition supports_unaligned (b : mp) : bool :=
  match b with BE _ | LE _ => true | NE _ => false end.
(** len, limbs_buffer.rs:1139,1365,1589,852 *)
Definition mp_len (b : mp) : Z :=
  match b with BE l | LE l => zlen l | NE l => zlen l * LB end.
(** nlimbs, limbs_buffer.rs:856-858 *)
Definition nlimbs (b : mp) : Z := ct_mp_nlimbs (mp_len b).
(** is_empty, limbs_buffer.rs:1145,1371,1595 *)
Definition mp_is_empty (b : mp) : bool :=
  match b with BE l | LE l | NE l => zlen l =? 0 end.
(** load_l_full, limbs_buffer.rs:1149,1375,1600 *)
Definition load_l_full (b : mp) (i : Z) : M Z :=
  tick (ELoad i) ;;
  match b with
  | BE l => be_mp_load_l_full l i
  | LE l => le_mp_load_l_full l i
  | NE l => znth l i
  end.
(** load_l, limbs_buffer.rs:1153,1379,1605 *)
Definition load_l (b : mp) (i : Z) : M Z :=
  tick (ELoad i) ;;
  match b with
  | BE l => be_mp_load_l l i
  | LE l => le_mp_load_l l i
  | NE l => znth l i
  end.
(** store_l_full, limbs_buffer.rs:1264,1490,1713 *)
Definition store_l_full (b : mp) (i value : Z) : M mp :=
  tick (EStore i) ;;
  match b with
  | BE l => let! l := be_mp_store_l_full l i value in ret (BE l)
  | LE l => let! l := le_mp_store_l_full l i value in ret (LE l)
  | NE l => let! l := zupd l i value in ret (NE l)
  end.
(** store_l, limbs_buffer.rs:1268,1494,1718 *)
Definition store_l (b : mp) (i value : Z) : M mp :=
  tick (EStore i) ;;
  match b with
  | BE l => let! l := be_mp_store_l l i value in ret (BE l)
  | LE l => let! l := le_mp_store_l l i value in ret (LE l)
  | NE l => let! l := zupd l i value in ret (NE l)
  end.
(** clear_bytes_above, limbs_buffer.rs:1272,1498,1722 *)
Definition clear_bytes_above (b : mp) (begin : Z) : M mp :=
  tick (EClear begin) ;;
  match b with
  | BE l => let! l := be_mp_clear_bytes_above l begin in ret (BE l)
  | LE l => let! l := le_mp_clear_bytes_above l begin in ret (LE l)
  | NE l => let! l := ne_mp_clear_bytes_above l begin in ret (NE l)
  end.
(** clear_bytes_below, limbs_buffer.rs:1276,1502,1735 *)
Definition clear_bytes_below (b : mp) (end_ : Z) : M mp :=
  tick (EClear end_) ;;
  match b with
  | BE l => let! l := be_mp_clear_bytes_below l end_ in ret (BE l)
  | LE l => let! l := le_mp_clear_bytes_below l end_ in ret (LE l)
  | NE l => let! l := ne_mp_clear_bytes_below l end_ in ret (NE l)
  end.

(** partial_high_mask, limbs_buffer.rs:791-802 *)
Definition partial_high_mask (b : mp) : M Z :=
  if supports_unaligned b then
    let high_npartial := if negb (mp_len b =? 0) then (mp_len b - 1) mod LB + 1 else 0 in
    ct_lsb_mask_l (8 * high_npartial)
  else ret (lnot 0).
(** partial_high_shift, limbs_buffer.rs:804-815 *)
Definition partial_high_shift (b : mp) : Z :=
  if supports_unaligned b then
    let high_npartial := mp_len b mod LB in
    if high_npartial =? 0 then 0 else 8 * high_npartial
  else 0.

(** test_bit, limbs_buffer.rs:865-873 *)
Definition test_bit (b : mp) (pos : Z) : M Z :=
  let limb_index := pos / W in
  mif (nlimbs b <=? limb_index) then lc_new 0 else
  let pos_in_limb := pos mod W in
  let! l := load_l b limb_index in
  let! s := lshr l pos_in_limb in
  lc_new (Z.land s 1).

(** len_is_compatible_with, limbs_buffer.rs:920-929 *)
Definition len_is_compatible_with (b : mp) (len : Z) : M bool :=
  mif (mp_len b <=? len) then ret true else
  mif (negb (supports_unaligned b) && (mp_len b - len <? LB)) then
    let! i := usub (nlimbs b) 1 in
    let! l := load_l b i in
    let! s := lshr l (8 * (LB - (mp_len b - len))) in
    ret (s =? 0)
  else ret false.

(** find_last_set_limb, limbs_buffer.rs:1806-1823 *)
Fixpoint fls_limb_loop (n : nat) (b : mp) : M Z :=
  match n with
  | O => tick (EBr false) ;; ret 0
  | S n' =>
    tick (EBr true) ;;
    let! l := load_l_full b (Z.of_nat n') in
    mif (negb (l =? 0)) then ret (Z.of_nat n) else fls_limb_loop n' b
  end.
(** find_last_set_limb, limbs_buffer.rs:1806-1823 *)
Definition find_last_set_limb (b : mp) : M Z :=
  let n := nlimbs b in
  mif (n =? 0) then ret 0 else
  let! l := load_l b (n - 1) in
  mif (l =? 0) then fls_limb_loop (Z.to_nat (n - 1)) b else ret n.
(** find_last_set_byte_mp, limbs_buffer.rs:1875-1882 *)
Definition find_last_set_byte_mp (b : mp) : M Z :=
  let! n := find_last_set_limb b in
  mif (n =? 0) then ret 0 else
  let! l := load_l b (n - 1) in
  let! k := ct_find_last_set_byte_l l in
  ret ((n - 1) * LB + k).
(** ct_find_first_set_bit_mp, limbs_buffer.rs:1932-1945 *)
Definition ct_find_first_set_bit_mp (b : mp) : M (Z * Z) :=
  let! one := lc_new 1 in
  let! '(tail_is_zero, n) :=
    zfor 0 (nlimbs b) (fun i '(tail_is_zero, n) =>
      let! v := load_l b i in
      let! f := ct_find_first_set_bit_l v in
      let n := n + lc_select tail_is_zero 0 f in
      let! z := ct_is_zero_l v in
      let! z := lc_new z in
      ret (lc_and tail_is_zero z, n)) (one, 0) in
  ret (lc_not tail_is_zero, lc_select_usize tail_is_zero n 0).
(** ct_find_last_set_bit_mp, limbs_buffer.rs:1991-2008 *)
Definition ct_find_last_set_bit_mp (b : mp) : M (Z * Z) :=
  let! one := lc_new 1 in
  let! '(head_is_zero, n) :=
    zfor_down 0 (nlimbs b) (fun i '(head_is_zero, n) =>
      let! v := load_l b i in
      let! f := ct_find_last_set_bit_l v in
      let! d := lsub W f in
      let n := n + lc_select head_is_zero 0 d in
      let! z := ct_is_zero_l v in
      let! z := lc_new z in
      ret (lc_and head_is_zero z, n)) (one, 0) in
  let! r := usub (nlimbs b * W) n in
  ret (lc_not head_is_zero, r).

(** clear_bytes_above_cond, limbs_buffer.rs:962-978 *)
Definition clear_bytes_above_cond (b : mp) (begin cond : Z) : M mp :=
  mif (mp_len b <=? begin) then ret b else
  let mask := lc_select cond (lnot 0) 0 in
  let begin_limb := begin / LB in
  let begin_in_limb := begin mod LB in
  let! val := load_l b begin_limb in
  let! m := ct_lsb_mask_l (8 * begin_in_limb) in
  let first_mask := Z.lor (lnot m) mask in
  let val := Z.land val first_mask in
  let! b := store_l b begin_limb val in
  zfor (begin_limb + 1) (nlimbs b) (fun i b =>
    let! v := load_l b i in
    store_l b i (Z.land v mask)) b.

(** copy_from, limbs_buffer.rs:980-999 *)
Definition copy_from (dst src : mp) : M mp :=
  let src_nlimbs := nlimbs src in
  let dst_nlimbs := nlimbs dst in
  dassert_m (let! n := find_last_set_byte_mp src in ret (n <=? mp_len dst)) ;;
  mif (src_nlimbs =? 0) then clear_bytes_above dst 0 else
  mif (dst_nlimbs =? 0) then ret dst else
  let common_nlimbs := Z.min src_nlimbs dst_nlimbs in
  let! dst := zfor 0 (common_nlimbs - 1) (fun i dst =>
    let! v := load_l_full src i in store_l_full dst i v) dst in
  let! high_limb := load_l src (common_nlimbs - 1) in
  dassert_m (if src_nlimbs <? dst_nlimbs then ret true else
             let! m := partial_high_mask dst in
             ret (Z.land high_limb (lnot m) =? 0)) ;;
  let! dst := store_l dst (common_nlimbs - 1) high_limb in
  clear_bytes_above dst (mp_len src).
(** copy_from_cond, limbs_buffer.rs:1001-1024 *)
Definition copy_from_cond (dst src : mp) (cond : Z) : M mp :=
  let src_nlimbs := nlimbs src in
  let dst_nlimbs := nlimbs dst in
  dassert_m (let! n := find_last_set_byte_mp src in ret (n <=? mp_len dst)) ;;
  mif (src_nlimbs =? 0) then clear_bytes_above_cond dst 0 cond else
  mif (dst_nlimbs =? 0) then ret dst else
  let common_nlimbs := Z.min src_nlimbs dst_nlimbs in
  let! dst := zfor 0 (common_nlimbs - 1) (fun i dst =>
    let! d := load_l_full dst i in
    let! s := load_l_full src i in
    store_l_full dst i (lc_select cond d s)) dst in
  let! d := load_l dst (common_nlimbs - 1) in
  let! s := load_l src (common_nlimbs - 1) in
  let high_limb := lc_select cond d s in
  dassert_m (if src_nlimbs <? dst_nlimbs then ret true else
             let! m := partial_high_mask dst in
             ret (Z.land high_limb (lnot m) =? 0)) ;;
  let! dst := store_l dst (common_nlimbs - 1) high_limb in
  clear_bytes_above_cond dst (mp_len src) cond.

(** set_bit_to, limbs_buffer.rs:1026-1036 *)
Definition set_bit_to (b : mp) (pos : Z) (val : bool) : M mp :=
  let limb_index := pos / W in
  dassert (limb_index <? nlimbs b) ;;
  let pos_in_limb := pos mod W in
  let! l := load_l b limb_index in
  let! bit_pos_mask := lshl 1 pos_in_limb in
  let! ch := lc_new (b2z val) in
  let val_mask := lc_select ch 0 bit_pos_mask in
  let l := Z.land l (lnot bit_pos_mask) in
  let l := Z.lor l val_mask in
  store_l b limb_index l.

(** try_into_u8/16/32/64, limbs_buffer.rs:821-849, 931-934; [sz] is the size
    in bytes of the native type.  The [as] casts truncate. *)
Definition try_into_native (sz : Z) (b : mp) : M (result Z unit) :=
  let nt_nlimbs := ct_mp_nlimbs sz in
  let nbytes_from_last := (sz - 1) mod LB + 1 in
  let! head := zfor nt_nlimbs (nlimbs b) (fun i h =>
    let! v := load_l b i in ret (Z.lor h v)) 0 in
  let! last_val := load_l b (nt_nlimbs - 1) in
  let! last_mask := ct_lsb_mask_l (8 * nbytes_from_last) in
  let head := Z.lor head (Z.land last_val (lnot last_mask)) in
  let! nz := ct_is_nonzero_l head in
  mif (negb (nz =? 0)) then ret (Err tt) else
  let result := Z.land last_val last_mask mod 2 ^ (8 * sz) in
  let! result := zfor_down 0 (nt_nlimbs - 1) (fun i result =>
    let result := (result * 2 ^ Z.min W (8 * sz - 1)) mod 2 ^ (8 * sz) in
    let! v := load_l_full b i in
    ret (Z.lor result (v mod 2 ^ (8 * sz)))) result in
  ret (Ok result).

(** set_to_u8/16/32/64, limbs_buffer.rs:939-954, 1038-1041 *)
Definition set_to_native (sz : Z) (b : mp) (value : Z) : M mp :=
  dassert (sz <=? mp_len b) ;;
  let! b := clear_bytes_above b sz in
  let! '(b, _) := zfor 0 (ct_mp_nlimbs sz) (fun i '(b, value) =>
    let! b := store_l b i (Z.land value (lnot 0 mod 2 ^ (8 * sz)) mod B) in
    ret (b, value / 2 ^ Z.min W (8 * sz - 1))) (b, value) in
  ret b.

(** ** Bit clearing and swapping *)

(** ct_clear_bits_above_mp, limbs_buffer.rs:2054-2066 *)
Definition ct_clear_bits_above_mp (b : mp) (begin : Z) : M mp :=
  let first_limb_index := begin / W in
  let! first_limb_mask := ct_lsb_mask_l (begin mod W) in
  let! '(b, _) := zfor 0 (nlimbs b) (fun i '(b, next_mask) =>
    let! is_first := ct_eq_usize_usize i first_limb_index in
    let mask := lc_select is_first next_mask first_limb_mask in
    let next_mask := lc_select is_first next_mask 0 in
    let! v := load_l b i in
    let! b := store_l b i (Z.land v mask) in
    ret (b, next_mask)) (b, lnot 0) in
  ret b.
(** clear_bits_above_mp, limbs_buffer.rs:2168-2181 *)
Definition clear_bits_above_mp (b : mp) (begin : Z) : M mp :=
  let first_limb_index := begin / W in
  mif (nlimbs b <=? first_limb_index) then ret b else
  let! first_limb_mask := ct_lsb_mask_l (begin mod W) in
  let! v := load_l b first_limb_index in
  let! b := store_l b first_limb_index (Z.land v first_limb_mask) in
  clear_bytes_above b ((begin + W - 1) / W * LB).
(** ct_clear_bits_below_mp, limbs_buffer.rs:2283-2295 *)
Definition ct_clear_bits_below_mp (b : mp) (end_ : Z) : M mp :=
  let last_limb_index := end_ / W in
  let! m := ct_lsb_mask_l (end_ mod W) in
  let last_limb_mask := lnot m in
  let! '(b, _) := zfor 0 (nlimbs b) (fun i '(b, next_mask) =>
    let! is_last := ct_eq_usize_usize i last_limb_index in
    let mask := lc_select is_last next_mask last_limb_mask in
    let next_mask := lc_select is_last next_mask (lnot 0) in
    let! v := load_l b i in
    let! b := store_l b i (Z.land v mask) in
    ret (b, next_mask)) (b, 0) in
  ret b.
(** clear_bits_below_mp, limbs_buffer.rs:2398-2410 *)
Definition clear_bits_below_mp (b : mp) (end_ : Z) : M mp :=
  let last_limb_index := end_ / W in
  let! b := clear_bytes_below b (last_limb_index * LB) in
  mif (nlimbs b <=? last_limb_index) then ret b else
  let! m := ct_lsb_mask_l (end_ mod W) in
  let! v := load_l b last_limb_index in
  store_l b last_limb_index (Z.land v (lnot m)).
(** ct_swap_cond_mp, limbs_buffer.rs:2513-2526 *)
Definition ct_swap_cond_mp (op0 op1 : mp) (cond : Z) : M (mp * mp) :=
  dassert (nlimbs op0 =? nlimbs op1) ;;
  let n := nlimbs op0 in
  let cond_mask := lc_select cond 0 (lnot 0) in
  zfor 0 n (fun i '(op0, op1) =>
    let! op0_val := load_l op0 i in
    let! op1_val := load_l op1 i in
    let op0_val := Z.lxor op0_val op1_val in
    let op1_val := Z.lxor op1_val (Z.land op0_val cond_mask) in
    let op0_val := Z.lxor op0_val op1_val in
    let! op0 := store_l op0 i op0_val in
    let! op1 := store_l op1 i op1_val in
    ret (op0, op1)) (op0, op1).

(** ** Slices *)

(** n_backing_elements_for_len for native limbs, limbs_buffer.rs:1057-1060 *)
Definition ne_elements_for_len (nbytes : Z) : Z :=
  let nbytes := ct_mp_limbs_align_len nbytes in
  nbytes / LB + (if negb (nbytes mod LB =? 0) then 1 else 0).
(** n_backing_elements_for_len for the kind of [b], limbs_buffer.rs:1049-1060 *)
Definition n_backing_elements_for_len (b : mp) (nbytes : Z) : Z :=
  match b with BE _ | LE _ => nbytes | NE _ => ne_elements_for_len nbytes end.
(** take, limbs_buffer.rs:1167,1393,1619: (high part, low [nbytes] part). *)
Definition mp_take (b : mp) (nbytes : Z) : M (mp * mp) :=
  match b with
  | BE l =>
    let! k := usub (zlen l) nbytes in
    let! hi := slice l 0 k in
    let! lo := slice l k (zlen l) in
    ret (BE hi, BE lo)
  | LE l =>
    let! lo := slice l 0 nbytes in
    let! hi := slice l nbytes (zlen l) in
    ret (LE hi, LE lo)
  | NE l =>
    dassert (nbytes mod LB =? 0) ;;
    let k := ne_elements_for_len nbytes in
    let! lo := slice l 0 k in
    let! hi := slice l k (zlen l) in
    ret (NE hi, NE lo)
  end.
(** _shrink_to, limbs_buffer.rs:1192,1313,1418,1539,1647,1784 *)
Definition mp_shrink_to_priv (b : mp) (nbytes : Z) : M mp :=
  match b with
  | BE l =>
    let! k := usub (zlen l) nbytes in
    let! lo := slice l k (zlen l) in ret (BE lo)
  | LE l => let! lo := slice l 0 nbytes in ret (LE lo)
  | NE l => let! lo := slice l 0 (ne_elements_for_len nbytes) in ret (NE lo)
  end.
(** shrink_to, limbs_buffer.rs:1088-1092,1114-1118 *)
Definition mp_shrink_to (b : mp) (nbytes : Z) : M mp :=
  let nbytes := Z.min nbytes (mp_len b) in
  dassert_m (let! n := find_last_set_byte_mp b in ret (n <=? nbytes)) ;;
  mp_shrink_to_priv b nbytes.

(** The caller's buffer after its shrunk mutable view [low], of limbs_buffer.rs:1114-1118, has been written. *)
Definition mp_unshrink (b low : mp) : mp :=
  match b, low with
  | BE l, BE s => BE (firstn (length l - length s) l ++ s)
  | LE l, LE s => LE (s ++ skipn (length s) l)
  | NE l, NE s => NE (s ++ skipn (length s) l)
  | _, _ => b
  end.

(** ** CompositeLimbsBuffer *)

(** CompositeLimbsBufferSegment, limbs_buffer.rs:2571-2595 *)
Record cseg := mk_cseg { cs_end : Z; cs_segment : mp; cs_high_next_partial : mp }.

(** CompositeLimbsBuffer::new, limbs_buffer.rs:2635-2671; the mutable array of
    segments is threaded as the list of segments still to be processed. *)
Fixpoint composite_new_aux (segments : list mp) (n_bytes_total : Z) (fuel : nat) : M (list cseg) :=
  match fuel, segments with
  | O, _ => ret []
  | _, [] => ret []
  | S fuel, segment :: rest =>
    let segment_len := mp_len segment in
    let n_bytes_total := n_bytes_total + segment_len in
    let n_high_partial := n_bytes_total mod LB in
    let! '(high_next_partial, segment, rest) :=
      match rest with
      | next_segment :: rest' =>
        mif (negb (n_high_partial =? 0)) then
          let n_from_next := Z.min (LB - n_high_partial) (mp_len next_segment) in
          let! '(next_segment, high_next_partial) := mp_take next_segment n_from_next in
          ret (high_next_partial, segment, next_segment :: rest')
        else
          let! '(high_next_partial, segment) := mp_take segment segment_len in
          ret (high_next_partial, segment, rest)
      | [] =>
        let! '(high_next_partial, segment) := mp_take segment segment_len in
        ret (high_next_partial, segment, rest)
      end in
    let n_bytes_total := n_bytes_total + mp_len high_next_partial in
    let end_ := ct_mp_nlimbs n_bytes_total in
    let! tl := composite_new_aux rest n_bytes_total fuel in
    ret (mk_cseg end_ segment high_next_partial :: tl)
  end.
(** CompositeLimbsBuffer::new, limbs_buffer.rs:2635-2671 *)
Definition composite_new (segments : list mp) : M (list cseg) :=
  composite_new_aux segments 0 (length segments).

(** limb_index_to_segment, limbs_buffer.rs:2688-2699: the segments from the
    found one on, its predecessors, and the segment offset.  The branches
    depend on the index and the segment lengths only. *)
Fixpoint limb_index_to_segment (before segs : list cseg) (segment_offset i : Z)
  : M (list cseg * cseg * list cseg * Z) :=
  match segs with
  | [] => panic
  | s :: rest =>
    mif (i <? cs_end s) then ret (before, s, rest, segment_offset)
    else limb_index_to_segment (before ++ [s]) rest (cs_end s) i
  end.

(** CompositeLimbsBuffer::load, limbs_buffer.rs:2710-2734 *)
Fixpoint composite_load_partial (segs : list cseg) (npartial value : Z) : M Z :=
  mif (npartial =? LB) then ret value else
  match segs with
  | [] => ret value
  | s :: rest =>
    let partial := cs_high_next_partial s in
    mif (negb (mp_is_empty partial)) then
      let! p := load_l partial 0 in
      let! p := lshl p (8 * npartial) in
      composite_load_partial rest (npartial + mp_len partial) (Z.lor value p)
    else composite_load_partial rest npartial value
  end.
(** CompositeLimbsBuffer::load, limbs_buffer.rs:2710-2734 *)
Definition composite_load (segs : list cseg) (i : Z) : M Z :=
  let! '(before, s, rest, segment_offset) := limb_index_to_segment [] segs 0 i in
  let! e1 := usub (cs_end s) 1 in
  mif (negb (i =? e1) || negb (supports_unaligned (cs_segment s))) then
    let! j := usub i segment_offset in load_l_full (cs_segment s) j
  else mif (match rest with [] => true | _ => false end || (mp_len (cs_segment s) mod LB =? 0)) then
    let! j := usub i segment_offset in load_l (cs_segment s) j
  else
    let npartial := mp_len (cs_segment s) mod LB in
    let! j := usub i segment_offset in
    let! value := load_l (cs_segment s) j in
    composite_load_partial (s :: rest) npartial value.

(** CompositeLimbsBuffer::store, limbs_buffer.rs:2748-2777 *)
Fixpoint composite_store_partial (segs : list cseg) (npartial value : Z) : M (list cseg * Z) :=
  mif (npartial =? LB) then ret (segs, value) else
  match segs with
  | [] => ret (segs, value)
  | s :: rest =>
    let partial := cs_high_next_partial s in
    mif (negb (mp_is_empty partial)) then
      let! value_mask := ct_lsb_mask_l (8 * mp_len partial) in
      let! partial' := store_l partial 0 (Z.land value value_mask) in
      let! value := lshr value (8 * mp_len partial) in
      let! '(rest, value) := composite_store_partial rest (npartial + mp_len partial) value in
      ret (mk_cseg (cs_end s) (cs_segment s) partial' :: rest, value)
    else
      let! '(rest, value) := composite_store_partial rest npartial value in
      ret (s :: rest, value)
  end.
(** CompositeLimbsBuffer::store, limbs_buffer.rs:2748-2777 *)
Definition composite_store (segs : list cseg) (i value : Z) : M (list cseg) :=
  let! '(before, s, rest, segment_offset) := limb_index_to_segment [] segs 0 i in
  let! e1 := usub (cs_end s) 1 in
  mif (negb (i =? e1) || negb (supports_unaligned (cs_segment s))) then
    let! j := usub i segment_offset in
    let! b := store_l_full (cs_segment s) j value in
    ret (before ++ mk_cseg (cs_end s) b (cs_high_next_partial s) :: rest)
  else mif (match rest with [] => true | _ => false end || (mp_len (cs_segment s) mod LB =? 0)) then
    let! j := usub i segment_offset in
    let! b := store_l (cs_segment s) j value in
    ret (before ++ mk_cseg (cs_end s) b (cs_high_next_partial s) :: rest)
  else
    let npartial := mp_len (cs_segment s) mod LB in
    let! value_mask := ct_lsb_mask_l (8 * npartial) in
    let! j := usub i segment_offset in
    let! b := store_l (cs_segment s) j (Z.land value value_mask) in
    let! value := lshr value (8 * npartial) in
    let! '(segs, value) :=
      composite_store_partial (mk_cseg (cs_end s) b (cs_high_next_partial s) :: rest) npartial value in
    dassert (value =? 0) ;;
    ret (before ++ segs).

(** The buffers the segments of a composite were made from: [take] has moved the
    low bytes of a segment to the [high_next_partial] of its predecessor, both are
    views of the same memory.  Not code, used to state what the caller sees. *)
Definition mp_join (lo hi : mp) : mp :=
  match lo, hi with
  | BE l, BE h => BE (h ++ l)
  | LE l, LE h => LE (l ++ h)
  | NE l, NE h => NE (l ++ h)
  | _, _ => hi
  end.
(** The same for the segments from the lowest on.  Not code. *)
Fixpoint join_segments (carry : option mp) (segs : list cseg) : list mp :=
  match segs with
  | [] => []
  | s :: rest =>
    match carry with None => cs_segment s | Some p => mp_join p (cs_segment s) end
      :: join_segments (Some (cs_high_next_partial s)) rest
  end.
(** The same for all segments.  Not code. *)
Definition composite_segments (segs : list cseg) : list mp := join_segments None segs.

End Model.
