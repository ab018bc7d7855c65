(** Specification vocabulary for multiprecision integer buffers: the integer a
    buffer denotes, and when a buffer is well formed. *)
From Coq Require Import ZArith List.
Require Import Verif.Spec Verif.Monad Verif.ModelBuf.
Import ListNotations.
Open Scope Z_scope.

Section Spec.
Context {c : cfg}.

(** The integer denoted by a buffer. *)
Definition mpval (b : mp) : Z :=
  match b with
  | BE bytes => be_val bytes
  | LE bytes => le_val bytes
  | NE limbs => digits_val (2 ^ (8 * LB)) limbs
  end.

(** Elements are bytes, respectively limbs, and eight times the length does not
    come near the range of usize. *)
Definition mp_ok (b : mp) : Prop :=
  match b with
  | BE bytes => digits_ok 256 bytes
  | LE bytes => digits_ok 256 bytes
  | NE limbs => digits_ok (2 ^ (8 * LB)) limbs
  end /\ 16 * mp_len b < 2 ^ UW.

(** Same representation and same length. *)
Inductive kind := KBE | KLE | KNE.
Definition kind_of (b : mp) : kind :=
  match b with BE _ => KBE | LE _ => KLE | NE _ => KNE end.
Definition same_shape (b b' : mp) : Prop := kind_of b' = kind_of b /\ mp_len b' = mp_len b.

(** [b'] is [b] updated to hold the integer [v]: well formed, same
    representation, same length. *)
Definition becomes (b b' : mp) (v : Z) : Prop := mp_ok b' /\ same_shape b b' /\ mpval b' = v.

(** A list of buffers, least significant first, read as one integer. *)
Definition segs_ok (k : kind) (segs : list mp) : Prop := Forall (fun b => mp_ok b /\ kind_of b = k) segs.
Fixpoint segs_len (segs : list mp) : Z := match segs with [] => 0 | s :: r => mp_len s + segs_len r end.
Fixpoint segs_val (segs : list mp) : Z := match segs with [] => 0 | s :: r => mpval s + 256 ^ mp_len s * segs_val r end.

End Spec.

(** Computation [m] does not panic and its result satisfies [P]. *)
Definition yields {A} (m : M A) (P : A -> Prop) : Prop := exists r, returns m r /\ P r.
