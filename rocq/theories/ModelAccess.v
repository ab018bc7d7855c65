(** Limb accesses with arbitrary indices.

    ModelBuf.v computes offsets of limbs without bounds, since the library's own
    accesses stay within the buffers.  The access functions are part of the public
    interface, though, and for indices chosen by a caller the products and sums
    overflow: here they are modelled as Rust's usize operations.  An index times
    the limb size which the source computes twice, once in an assertion, is
    computed once: both overflow or none does. *)
From Coq Require Import ZArith List Bool.
Require Import Verif.Spec Verif.Monad Verif.ModelLimb Verif.ModelBuf.
Import ListNotations.
Open Scope Z_scope.

Section Model.
Context {c : cfg}.

(** be_mp_load_l_full, limbs_buffer.rs:121-125 *)
Definition be_load_l_full_usize (limbs : list Z) (i : Z) : M Z :=
  let! offset := umul i LB in
  dassert (offset <? zlen limbs) ;;
  let! src_end := usub (zlen limbs) offset in
  _be_mp_load_l_full limbs src_end.
(** be_mp_load_l, limbs_buffer.rs:148-156 *)
Definition be_load_l_usize (limbs : list Z) (i : Z) : M Z :=
  let! offset := umul i LB in
  dassert (offset <=? zlen limbs) ;;
  let! src_end := usub (zlen limbs) offset in
  mif (LB <=? src_end) then _be_mp_load_l_full limbs src_end
  else _be_mp_load_l_high_partial limbs src_end.
(** be_mp_store_l_full, limbs_buffer.rs:272-276 *)
Definition be_store_l_full_usize (limbs : list Z) (i value : Z) : M (list Z) :=
  let! offset := umul i LB in
  dassert (offset <? zlen limbs) ;;
  let! dst_end := usub (zlen limbs) offset in
  _be_mp_store_l_full limbs dst_end value.
(** be_mp_store_l, limbs_buffer.rs:301-310 *)
Definition be_store_l_usize (limbs : list Z) (i value : Z) : M (list Z) :=
  let! offset := umul i LB in
  dassert (offset <=? zlen limbs) ;;
  let! dst_end := usub (zlen limbs) offset in
  mif (LB <=? dst_end) then _be_mp_store_l_full limbs dst_end value
  else
    dassert_m (let! h := lshr value (8 * dst_end) in ret (h =? 0)) ;;
    _be_mp_store_l_high_partial limbs dst_end value.

(** _le_mp_load_l_full, limbs_buffer.rs:437-442 *)
Definition _le_load_l_full_usize (limbs : list Z) (src_begin : Z) : M Z :=
  let! src_end := uadd src_begin LB in
  let! src := slice limbs src_begin src_end in
  ret (le_val src).
(** le_mp_load_l_full, limbs_buffer.rs:491-495 *)
Definition le_load_l_full_usize (limbs : list Z) (i : Z) : M Z :=
  let! src_begin := umul i LB in
  dassert (src_begin <? zlen limbs) ;;
  _le_load_l_full_usize limbs src_begin.
(** le_mp_load_l, limbs_buffer.rs:518-526 *)
Definition le_load_l_usize (limbs : list Z) (i : Z) : M Z :=
  let! src_begin := umul i LB in
  dassert (src_begin <? zlen limbs) ;;
  let! src_end := uadd src_begin LB in
  mif (src_end <=? zlen limbs) then _le_load_l_full_usize limbs src_begin
  else _le_mp_load_l_high_partial limbs src_begin.
(** _le_mp_store_l_full, limbs_buffer.rs:586-591 *)
Definition _le_store_l_full_usize (limbs : list Z) (dst_begin value : Z) : M (list Z) :=
  let! dst_end := uadd dst_begin LB in
  let! dst := slice limbs dst_begin dst_end in
  ret (splice limbs dst_begin (to_le_bytes value)).
(** le_mp_store_l_full, limbs_buffer.rs:641-645 *)
Definition le_store_l_full_usize (limbs : list Z) (i value : Z) : M (list Z) :=
  let! dst_begin := umul i LB in
  dassert (dst_begin <? zlen limbs) ;;
  _le_store_l_full_usize limbs dst_begin value.
(** le_mp_store_l, limbs_buffer.rs:670-679 *)
Definition le_store_l_usize (limbs : list Z) (i value : Z) : M (list Z) :=
  let! dst_begin := umul i LB in
  dassert (dst_begin <? zlen limbs) ;;
  let! dst_end := uadd dst_begin LB in
  mif (dst_end <=? zlen limbs) then _le_store_l_full_usize limbs dst_begin value
  else
    dassert_m (let! d := usub (zlen limbs) dst_begin in
               let! h := lshr value (8 * d) in ret (h =? 0)) ;;
    _le_mp_store_l_high_partial limbs dst_begin value.

(** load_l_full, limbs_buffer.rs:1149,1375,1600 *)
Definition load_l_full_usize (b : mp) (i : Z) : M Z :=
  tick (ELoad i) ;;
  match b with
  | BE l => be_load_l_full_usize l i
  | LE l => le_load_l_full_usize l i
  | NE l => znth l i
  end.
(** load_l, limbs_buffer.rs:1153,1379,1605 *)
Definition load_l_usize (b : mp) (i : Z) : M Z :=
  tick (ELoad i) ;;
  match b with
  | BE l => be_load_l_usize l i
  | LE l => le_load_l_usize l i
  | NE l => znth l i
  end.
(** store_l_full, limbs_buffer.rs:1264,1490,1713 *)
Definition store_l_full_usize (b : mp) (i value : Z) : M mp :=
  tick (EStore i) ;;
  match b with
  | BE l => let! l := be_store_l_full_usize l i value in ret (BE l)
  | LE l => let! l := le_store_l_full_usize l i value in ret (LE l)
  | NE l => let! l := zupd l i value in ret (NE l)
  end.
(** store_l, limbs_buffer.rs:1268,1494,1718 *)
Definition store_l_usize (b : mp) (i value : Z) : M mp :=
  tick (EStore i) ;;
  match b with
  | BE l => let! l := be_store_l_usize l i value in ret (BE l)
  | LE l => let! l := le_store_l_usize l i value in ret (LE l)
  | NE l => let! l := zupd l i value in ret (NE l)
  end.
End Model.
