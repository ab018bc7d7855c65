(** Specification vocabulary for the theorems about sequences of calls. *)
From Coq Require Import ZArith List.
Require Import Verif.Spec Verif.Monad Verif.ModelBuf Verif.SpecBuf Verif.SpecMont.
Open Scope Z_scope.

Section Spec.
Context {c : cfg}.

(** [n] is a modulus modular exponentiation handles, see C29, C30 and C32 for the others. *)
Definition exp_modulus (n : mp) : Prop :=
  mp_ok n /\ Z.odd (mpval n) = true /\ 2 <= nlimbs n /\ mg_carry_ok n /\ 16 * (mp_len n + LB) + 8 < 2 ^ UW.

(** The same without the guard against lost carries. *)
Definition exp_modulus_any (n : mp) : Prop :=
  mp_ok n /\ Z.odd (mpval n) = true /\ 2 <= nlimbs n /\ 16 * (mp_len n + LB) + 8 < 2 ^ UW.
(** No carry gets lost in raising [x] to the power of the low [k] bits of [e], see C30 and C32: neither in the conversion to
    Montgomery form nor in one of the squarings and multiplications. *)
Definition exp_fine (n : mp) (x : Z) (e : mp) (k : Z) : Prop :=
  mg_fine n x ((mg_radix n * mg_radix n) mod mpval n) /\ mg_exp_fine n x (mpval e mod 2 ^ k) k.

(** [b] is a buffer for residues modulo [n]: of the modulus' length or, if made of native limbs, of as many as needed. *)
Definition residue_buf (n b : mp) : Prop :=
  mp_ok b /\ (mp_len b = mp_len n \/ kind_of b = KNE /\ mp_len n <= mp_len b < mp_len n + LB).
(** Intermediate products can be held there, see C30. *)
Definition result_buf (n b : mp) : Prop := residue_buf n b /\ mg_room b n.
Definition exp_scratch (n : mp) (s : list Z) : Prop := mp_ok (NE s) /\ nlimbs n <= zlen s /\ mg_room (NE s) n.

(** The integer an exponentiation by the low [nbits] bits of [e] uses. *)
Definition expo (e : mp) (nbits : Z) : Z := mpval e mod 2 ^ nbits.

End Spec.
