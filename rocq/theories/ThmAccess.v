(** Theorems about limb accesses with arbitrary indices and values: property C58.

    SpecAccess.v says which limb an access with index [i] gets at, [index_used b i],
    whether that limb exists, [limb_exists] and [limb_exists_full], and how many
    values its bytes in the buffer can take, [limb_room].  [limb_at b j] is limb [j]
    of the integer in [b]. *)
From Coq Require Import ZArith List Bool Lia.
Require Import Verif.Spec Verif.Monad Verif.ModelLimb Verif.ModelBuf Verif.SpecBuf Verif.ModelAccess Verif.SpecAccess Verif.AccessProofs.
Import ListNotations.
Open Scope Z_scope.

(** ** C58: what an access does, for every index and every value *)

(** A load returns the limb if it exists, and panics otherwise. *)
Theorem C58_load : forall (c : cfg) b i, mp_ok b -> 0 <= i -> let j := index_used b i in
  if limb_exists b j then returns (load_l_usize b i) (limb_at b j) else panics (load_l_usize b i).
Proof. exact load_any. Qed.
Print Assumptions C58_load.

Theorem C58_load_full : forall (c : cfg) b i, mp_ok b -> 0 <= i -> let j := index_used b i in
  if limb_exists_full b j then returns (load_l_full_usize b i) (limb_at b j) else panics (load_l_full_usize b i).
Proof. exact load_full_any. Qed.
Print Assumptions C58_load_full.

(** A store replaces the limb if it exists.  A value too large for the limb's bytes
    in the buffer is reduced in release builds; debug builds panic. *)
Theorem C58_store : forall (c : cfg) b i v, mp_ok b -> 0 <= i -> 0 <= v < B -> let j := index_used b i in
  if limb_exists b j && negb (debug c && (limb_room b j <=? v))
  then yields (store_l_usize b i v) (fun b' => becomes b b' (mpval b + (v mod limb_room b j - limb_at b j) * B ^ j))
  else panics (store_l_usize b i v).
Proof. exact store_any. Qed.
Print Assumptions C58_store.

Theorem C58_store_full : forall (c : cfg) b i v, mp_ok b -> 0 <= i -> 0 <= v < B -> let j := index_used b i in
  if limb_exists_full b j then yields (store_l_full_usize b i v) (fun b' => becomes b b' (mpval b + (v - limb_at b j) * B ^ j))
  else panics (store_l_full_usize b i v).
Proof. exact store_full_any. Qed.
Print Assumptions C58_store_full.

(** As long as no offset overflows, these are the accesses of ModelBuf.v, by which
    everything else in the model goes. *)
Theorem C58_small_index : forall (c : cfg) b i v, 0 <= i -> (i + 1) * LB < 2 ^ UW ->
  load_l_usize b i = load_l b i /\ load_l_full_usize b i = load_l_full b i /\
  store_l_usize b i v = store_l b i v /\ store_l_full_usize b i v = store_l_full b i v.
Proof. exact small_index_same. Qed.
Print Assumptions C58_small_index.

(** So it is false that accesses past the end panic.  In release builds, an index may
    wrap around: in an eight byte buffer, limb 2^61 reads and overwrites limb 0. *)
Theorem C58_wraps_refuted : exists (c : cfg) l i,
  mp_ok (LE l) /\ mp_ok (BE (rev l)) /\ mp_len (LE l) < i * LB /\ i < 2 ^ UW /\
  returns (load_l_usize (LE l) i) (mpval (LE l)) /\ returns (load_l_full_usize (BE (rev l)) i) (mpval (LE l)) /\
  returns (store_l_usize (LE l) i 0) (LE (repeat 0 8)) /\ mpval (LE l) <> 0.
Proof.
  exists (mkcfg true false true false), [1; 2; 3; 4; 5; 6; 7; 8], (2 ^ 61).
  split. { split; [repeat constructor; vm_compute; congruence|vm_compute; reflexivity]. }
  split. { split; [repeat constructor; vm_compute; congruence|vm_compute; reflexivity]. }
  repeat (split; [vm_compute; reflexivity|]). vm_compute. congruence.
Qed.
Print Assumptions C58_wraps_refuted.

(** Just past the end, a big-endian buffer reads as zero, and swallows what is stored
    in release builds; a native buffer panics in both. *)
Theorem C58_past_end_refuted : exists (c : cfg) (l : list Z) (w : list Z),
  mp_ok (BE l) /\ mp_ok (NE w) /\ mp_len (BE l) = mp_len (NE w) /\ mp_len (BE l) = 1 * LB /\
  returns (load_l_usize (BE l) 1) 0 /\ returns (store_l_usize (BE l) 1 77) (BE l) /\
  panics (load_l_usize (NE w) 1) /\ panics (store_l_usize (NE w) 1 77).
Proof.
  exists (mkcfg false false true false), [1; 2; 3; 4], [5].
  split. { split; [repeat constructor; vm_compute; congruence|vm_compute; reflexivity]. }
  split. { split; [repeat constructor; vm_compute; congruence|vm_compute; reflexivity]. }
  repeat (split; [vm_compute; reflexivity|]). vm_compute. reflexivity.
Qed.
Print Assumptions C58_past_end_refuted.

(** In debug builds no access to a buffer past its end goes unnoticed, except that a
    zero may be read from or stored just past the end of a big-endian one. *)
Theorem C58_debug_past_end : forall (c : cfg) b i v, debug c = true -> mp_ok b -> 0 <= i -> 0 <= v < B -> mp_len b <= i * LB ->
  panics (load_l_full_usize b i) /\ panics (store_l_full_usize b i v) /\
  (kind_of b <> KBE \/ mp_len b < i * LB -> panics (load_l_usize b i) /\ panics (store_l_usize b i v)) /\
  (kind_of b = KBE -> mp_len b = i * LB ->
   returns (load_l_usize b i) 0 /\ (v = 0 -> yields (store_l_usize b i v) (fun b' => becomes b b' (mpval b))) /\
   (v <> 0 -> panics (store_l_usize b i v))).
Proof. exact debug_past_end. Qed.
Print Assumptions C58_debug_past_end.

(** *** Cases *)
(** Three bytes with 32-bit limbs: a load, stores of values that fit and that do not, in both builds. *)
Example ex_access :
  (let c := mkcfg false false false true in
   returns (load_l_usize (BE [1; 2; 3]) 0) 0x010203 /\ panics (load_l_usize (BE [1; 2; 3]) 1) /\ panics (load_l_usize (BE [1; 2; 3]) (2 ^ 31)) /\
   panics (load_l_full_usize (LE [1; 2; 3]) 0) /\ returns (store_l_usize (LE [1; 2; 3]) 0 0x040506) (LE [6; 5; 4]) /\
   panics (store_l_usize (LE [1; 2; 3]) 0 0x07040506)) /\
  (let c := mkcfg false false false false in
   returns (load_l_usize (BE [1; 2; 3]) (2 ^ 31)) 0x010203 /\ returns (store_l_usize (LE [1; 2; 3]) 0 0x07040506) (LE [6; 5; 4]) /\
   panics (load_l_usize (BE [1; 2; 3]) 1) /\ panics (load_l_usize (LE [1; 2; 3]) 1)).
Proof. repeat split; vm_compute; reflexivity. Qed.
