(** Theorems about the multiprecision shifts: properties C20 and C21.

    Vocabulary (SpecBuf.v): [mpval b] is the integer the buffer [b] denotes, in
    any of the three encodings; [becomes b b' v] says that [b'] has the encoding
    and length of [b] and denotes [v]; [yields m P]: [m] does not panic and its
    result satisfies [P].  [UW] is the width of usize, [B] = 2^W the limb base. *)
From Coq Require Import ZArith List Bool Lia.
Require Import Verif.Spec Verif.Monad Verif.ModelLimb Verif.ModelBuf Verif.SpecBuf Verif.ModelShift Verif.ShiftProofs.
Import ListNotations.
Open Scope Z_scope.

(** ** C20: left shift

    The full product v * 2^d is split at the buffer's width: the low part is
    stored, and of the part moved out the least significant limb is returned. *)
Theorem C20_lshift : forall (c : cfg) a d, mp_ok a -> 0 <= d < 2 ^ UW ->
  yields (ct_lshift_mp a d) (fun '(a', out) =>
    becomes a a' ((mpval a * 2 ^ d) mod 256 ^ mp_len a) /\
    out = (mpval a * 2 ^ d / 256 ^ mp_len a) mod B).
Proof. exact lshift_correct. Qed.
Print Assumptions C20_lshift.

(** ** C21: right shift

    With a limb of zeros appended below, v * B / 2^d has the quotient above its
    least significant limb; that limb holds the last W bits shifted out. *)
Theorem C21_rshift : forall (c : cfg) a d, mp_ok a -> 0 <= d < 2 ^ UW ->
  yields (ct_rshift_mp a d) (fun '(a', out) =>
    becomes a a' (mpval a / 2 ^ d) /\
    out = (mpval a * B / 2 ^ d) mod B).
Proof. exact rshift_correct. Qed.
Print Assumptions C21_rshift.

(** Concrete, non-trivial cases meeting the hypotheses above: a partial high limb,
    a distance that is not a multiple of the limb width, and one beyond the width. *)
Example ex_shift : let c := mkcfg false false true true in
  let a := BE [0x12; 0x34; 0x56; 0x78; 0x9a; 0xbc] in
  mp_ok a /\ 0 <= 36 < 2 ^ UW /\
  snd (ct_lshift_mp a 36) = Some (BE [0xab; 0xc0; 0; 0; 0; 0], 0x23456789) /\
  snd (ct_rshift_mp a 36) = Some (BE [0; 0; 0; 0; 0x01; 0x23], 0x456789ab) /\
  snd (ct_lshift_mp a 60) = Some (BE [0; 0; 0; 0; 0; 0], 0x89abc000) /\
  snd (ct_rshift_mp a 1000) = Some (BE [0; 0; 0; 0; 0; 0], 0).
Proof.
  repeat (split; [first [split; [repeat constructor; vm_compute; congruence|vm_compute; reflexivity]|vm_compute; congruence|vm_compute; reflexivity]|]).
  vm_compute. reflexivity.
Qed.
