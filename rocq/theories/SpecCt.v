(** Specification vocabulary for constant time. *)
From Coq Require Import ZArith List.
Require Import Verif.Spec Verif.Monad Verif.ModelLimb Verif.ModelBuf Verif.SpecBuf Verif.ModelDiv Verif.SpecEuclid.
Import ListNotations.
Open Scope Z_scope.

(** Two runs that cannot be told apart: the same branches are taken, the same limbs
    (by index) are loaded, stored and cleared, hardware divisions have the same
    operands, all of it in the same order; and either both runs panic or none. *)
Definition agree {A} (m m' : M A) : Prop := trace m = trace m' /\ (panics m <-> panics m').

(** What remains of an event if the address of a load or store is not observed. *)
Definition op_of (e : event) : event :=
  match e with ELoad _ => ELoad 0 | EStore _ => EStore 0 | EClear _ => EClear 0 | EBr b => EBr b | EDiv a b => EDiv a b end.
Definition operations {A} (m : M A) : list event := map op_of (trace m).

Section Spec.
Context {c : cfg}.
(** Optional buffers: both absent, or of the same encoding and length. *)
Definition same_opt (o o' : option mp) : Prop :=
  match o, o' with Some b, Some b' => same_shape b b' | None, None => True | _, _ => False end.

(** The quotient buffer, if there is one, holds whatever quotient a dividend of [len]
    bytes and a divisor of [n] bytes may have, when counted in whole limbs. *)
Definition q_limbs_suffice (q : option mp) (len n : Z) : Prop :=
  match q with Some b => len + 1 - n <= LB * nlimbs b | None => True end.

(** The two integers need the same number of bytes. *)
Definition same_byte_len (v v' : Z) : Prop := forall n, 0 <= n -> (v < 256 ^ n <-> v' < 256 ^ n).
(** The two integers need the same number of bits. *)
Definition same_bit_len (v v' : Z) : Prop := forall n, 0 <= n -> (v < 2 ^ n <-> v' < 2 ^ n).
(** The two integers are divisible by the same powers of two. *)
Definition same_twos (v v' : Z) : Prop := forall k, 0 <= k -> ((2 ^ k | v) <-> (2 ^ k | v')).
(** Buffers for the least common multiple of operands of [l0] and [l1] bytes: the conditions of C37, with one limb more
    in the result. *)
Definition lcm_guard (res op0 : mp) (l0 : Z) (op1 : mp) (l1 : Z) (scr : mp) : Prop :=
  mp_ok res /\ mp_ok op0 /\ mp_ok op1 /\ mp_ok scr /\ kind_of scr = kind_of op1 /\
  let n0 := Z.min l0 (mp_len op0) in let n1 := Z.min l1 (mp_len op1) in
  0 < n0 /\ 0 < n1 /\ mp_len op0 = mp_len op1 /\ gcd_len_ok (mp_len op0) /\
  mpval op0 < 256 ^ n0 /\ mpval op1 < 256 ^ n1 /\ n0 + n1 + LB <= mp_len res /\ n0 + n1 <= mp_len scr /\
  (kind_of op1 = KNE -> (n0 + n1) mod LB = 0).
End Spec.

(** What remains of an event if the operands of a hardware division are not observed. *)
Definition ctl_of (e : event) : event := match e with EDiv _ _ => EDiv 0 0 | e => e end.
Definition control {A} (m : M A) : list event := map ctl_of (trace m).
