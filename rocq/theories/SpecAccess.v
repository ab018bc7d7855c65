(** Which limb an access with an arbitrary index gets at. *)
From Coq Require Import ZArith List Bool.
Require Import Verif.Spec Verif.Monad Verif.ModelBuf Verif.SpecBuf.
Open Scope Z_scope.

(** The index used: that of the caller, except that in release builds the offset into
    a byte buffer is computed modulo the range of usize. *)
Definition index_used {c : cfg} (b : mp) (i : Z) : Z :=
  match kind_of b with
  | KNE => i
  | _ => if debug c then i else i mod (2 ^ UW / LB)
  end.

(** Does the limb exist?  A limb without any byte in the buffer, at the end of a byte
    buffer whose length is a multiple of the limb size, passes for one: always in the
    big-endian encoding, and in release builds in the little-endian one. *)
Definition limb_exists {c : cfg} (b : mp) (j : Z) : bool :=
  (j * LB <? mp_len b) ||
  (j * LB =? mp_len b) && match kind_of b with KBE => true | KLE => negb (debug c) | KNE => false end.

(** Is it wholly contained in the buffer? *)
Definition limb_exists_full {c : cfg} (b : mp) (j : Z) : bool := (j + 1) * LB <=? mp_len b.

(** The limb's value. *)
Definition limb_at {c : cfg} (b : mp) (j : Z) : Z := (mpval b / B ^ j) mod B.
(** The number of values the limb's bytes in the buffer can take. *)
Definition limb_room {c : cfg} (b : mp) (j : Z) : Z := 256 ^ Z.min LB (mp_len b - j * LB).
