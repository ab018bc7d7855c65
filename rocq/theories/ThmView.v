(** Theorems about the views between limbs and bytes: property C46. *)
From Coq Require Import ZArith List.
Require Import Verif.Spec Verif.Monad Verif.ModelLimb Verif.ModelBuf Verif.SpecBuf Verif.ModelView Verif.ViewProofs.
Import ListNotations.
Open Scope Z_scope.

(** On a little endian machine, the bytes of a limb slice are the little endian encoding of the integer in the limbs. *)
Theorem C46_limb_bytes_le : forall (c : cfg) l, mp_ok (NE l) ->
  let b := LE (limb_slice_as_bytes false l) in mp_ok b /\ mp_len b = mp_len (NE l) /\ mpval b = mpval (NE l).
Proof. exact @view_le_ok. Qed.
Print Assumptions C46_limb_bytes_le.

(** On a big endian machine, the bytes of a limb slice in reverse order (most significant limb first) are the big endian encoding. *)
Theorem C46_limb_bytes_be : forall (c : cfg) l, mp_ok (NE l) ->
  let b := BE (limb_slice_as_bytes true (rev l)) in mp_ok b /\ mp_len b = mp_len (NE l) /\ mpval b = mpval (NE l).
Proof. exact @view_be_ok. Qed.
Print Assumptions C46_limb_bytes_be.

(** The mutable view: not writing leaves the limbs alone, and what is written is what is found in the bytes and, on a little endian
    machine, its little endian value is the integer in the limbs. *)
Theorem C46_bytes_mut_read : forall (c : cfg) be l, mp_ok (NE l) -> limb_slice_as_bytes_mut be l (fun bytes => bytes) = l.
Proof. exact @view_read. Qed.
Print Assumptions C46_bytes_mut_read.
Theorem C46_bytes_mut_write : forall (c : cfg) be l bytes, mp_ok (NE l) -> digits_ok 256 bytes -> zlen bytes = zlen (limb_slice_as_bytes be l) ->
  let l' := limb_slice_as_bytes_mut be l (fun _ => bytes) in
  mp_ok (NE l') /\ zlen l' = zlen l /\ limb_slice_as_bytes be l' = bytes /\ (be = false -> mpval (NE l') = mpval (LE bytes)).
Proof. exact @view_write. Qed.
Print Assumptions C46_bytes_mut_write.

(** The number of limbs to allocate for a length in bytes is the least sufficient one, unless rounding the length up to a multiple of the
    limb size overflows. *)
Theorem C46_nlimbs_for_len : forall (c : cfg) n, 0 <= n -> n + LB < 2 ^ UW ->
  yields (nlimbs_for_len n) (fun m => forall k, m <= k <-> n <= LB * k).
Proof. exact @nlimbs_for_len_ok. Qed.
Print Assumptions C46_nlimbs_for_len.

(** For the largest lengths, debug builds panic and release builds ask for no limbs at all. *)
Theorem C46_nlimbs_overflow_debug : forall (c : cfg) n, debug c = true -> 0 <= n -> 2 ^ UW <= n + LB -> panics (nlimbs_for_len n).
Proof. exact @nlimbs_for_len_debug. Qed.
Print Assumptions C46_nlimbs_overflow_debug.
Theorem C46_nlimbs_overflow_release : forall (c : cfg) n, debug c = false -> 0 <= n < 2 ^ UW -> 2 ^ UW < n + LB -> returns (nlimbs_for_len n) 0.
Proof. exact @nlimbs_for_len_release. Qed.
Print Assumptions C46_nlimbs_overflow_release.
Theorem C46_nlimbs_overflow_refuted :
  ~ (forall (c : cfg) n, 0 <= n < 2 ^ UW -> yields (nlimbs_for_len n) (fun m => forall k, m <= k <-> n <= LB * k)).
Proof. exact nlimbs_overflow_refuted. Qed.
Print Assumptions C46_nlimbs_overflow_refuted.

(** Concrete cases. *)
Example ex_view : let c := mkcfg false false true true in
  mp_ok (NE [0x04030201; 0x08070605]) /\ limb_slice_as_bytes false [0x04030201; 0x08070605] = [1; 2; 3; 4; 5; 6; 7; 8] /\
  limb_slice_as_bytes true [0x04030201; 0x08070605] = [4; 3; 2; 1; 8; 7; 6; 5] /\
  limb_slice_as_bytes_mut false [0; 0] (fun _ => [1; 2; 3; 4; 5; 6; 7; 8]) = [0x04030201; 0x08070605] /\
  returns (nlimbs_for_len 5) 2 /\ returns (nlimbs_for_len 8) 2.
Proof.
  cbv zeta. split; [split; [repeat constructor; vm_compute; congruence|vm_compute; reflexivity]|].
  vm_compute. repeat split; reflexivity.
Qed.

Example ex_view_overflow :
  (let c := mkcfg false false true true in 2 ^ UW <= (2 ^ 64 - 4) + LB /\ panics (nlimbs_for_len (2 ^ 64 - 4))) /\
  (let c := mkcfg false false true false in 2 ^ UW < (2 ^ 64 - 3) + LB /\ returns (nlimbs_for_len (2 ^ 64 - 3)) 0) /\
  (let c := mkcfg false false true true in
   let b := LE (limb_slice_as_bytes false [0x04030201; 5]) in let b' := BE (limb_slice_as_bytes true (rev [0x04030201; 5])) in
   b = LE [1; 2; 3; 4; 5; 0; 0; 0] /\ b' = BE [0; 0; 0; 5; 4; 3; 2; 1] /\
   limb_slice_as_bytes_mut true [0; 0] (fun _ => [1; 2; 3; 4; 5; 6; 7; 8]) = [0x01020304; 0x05060708]).
Proof. repeat split; vm_compute; congruence. Qed.
