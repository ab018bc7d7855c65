(** Model of the views between limbs and bytes of src/limbs_buffer.rs. *)
From Coq Require Import ZArith List.
Require Import Verif.Spec Verif.Monad Verif.ModelLimb Verif.ModelBuf.
Import ListNotations.
Open Scope Z_scope.

Section Model.
Context {c : cfg}.

(** limb_slice_as_bytes, limbs_buffer.rs:2972-2976: the bytes the limbs occupy in memory, on a machine which is big endian if [be]. *)
Definition limb_slice_as_bytes (be : bool) (limbs : list Z) : list Z :=
  flat_map (fun v => if be then to_be_bytes v else to_le_bytes v) limbs.

(** The limbs found in memory after [bytes] have been written to it through the view of limbs_buffer.rs:2966-2970. *)
Fixpoint limbs_in_bytes (be : bool) (n : nat) (bytes : list Z) : list Z :=
  match n with
  | O => []
  | S n =>
    let limb := firstn (Z.to_nat LB) bytes in
    (if be then be_val limb else le_val limb) :: limbs_in_bytes be n (skipn (Z.to_nat LB) bytes)
  end.

(** limb_slice_as_bytes_mut, limbs_buffer.rs:2966-2970: the limbs after [f] has been applied to the byte view.  A function [f] changing
    the length has no counterpart in Rust. *)
Definition limb_slice_as_bytes_mut (be : bool) (limbs : list Z) (f : list Z -> list Z) : list Z :=
  limbs_in_bytes be (length limbs) (f (limb_slice_as_bytes be limbs)).

(** nlimbs_for_len, limbs_buffer.rs:1581-1583,1682-1684, with n_backing_elements_for_len, 1057-1060, _limbs_align_len, 1049-1055, and
    ct_mp_limbs_align_len, 33-35.  Unlike for the lengths of buffers, the argument is the caller's and the addition may overflow. *)
Definition nlimbs_for_len (nbytes : Z) : M Z :=
  let! n := unlimbs nbytes in
  let! nbytes := umul n LB in
  ret (nbytes / LB + (if negb (nbytes mod LB =? 0) then 1 else 0)).

End Model.
