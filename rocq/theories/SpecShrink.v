(** Splitting and shrinking buffers. *)
From Coq Require Import ZArith List.
Require Import Verif.Spec Verif.Monad Verif.ModelBuf Verif.SpecBuf.
Open Scope Z_scope.

Section Spec.
Context {c : cfg}.
(** [v] is a view of the [n] low bytes of [b], rounded up to whole limbs for native buffers; [n] beyond the length of [b] counts as that length. *)
Definition low_view (b : mp) (n : Z) (v : mp) : Prop :=
  let m := Z.min n (mp_len b) in
  mp_ok v /\ kind_of v = kind_of b /\ (if match kind_of b with KNE => true | _ => false end then mp_len v mod LB = 0 /\ m <= mp_len v < m + LB else mp_len v = m) /\
  mpval v = mpval b mod 256 ^ mp_len v.
(** [hi] and [lo] are the two parts of [b], the lower one of [n] bytes. *)
Definition parts (b : mp) (n : Z) (hi lo : mp) : Prop :=
  mp_ok hi /\ mp_ok lo /\ kind_of hi = kind_of b /\ kind_of lo = kind_of b /\ mp_len lo = n /\ mp_len hi = mp_len b - n /\ mpval b = mpval lo + 256 ^ n * mpval hi.
End Spec.
