(** What testing and searching for primes find, whether or not carries get lost. *)
From Coq Require Import ZArith List.
Require Import Verif.Spec Verif.Monad Verif.ModelBuf Verif.SpecBuf Verif.SpecMont Verif.SpecMontValue Verif.SpecPrime.
Open Scope Z_scope.

Section Spec.
Context {c : cfg}.

(** The candidate passes for the base [a]: its residue, brought to Montgomery form by a multiplication that may lose carries, makes the test succeed. *)
Definition mr_passes (p : mp) (a : Z) : Prop := exists g s d, neg_inv p g /\ 0 <= s /\ mpval p - 1 = 2 ^ s * d /\ Z.odd d = true /\
  mr_outcome p g (mg_product p g (a mod mpval p) ((mg_radix p * mg_radix p) mod mpval p)) s (mg_radix p mod mpval p) (Z.to_nat (8 * mp_len p - 1)) = true.

(** The number [q], in a buffer like [n], is taken for a prime: no small factors, and it passes for all the bases. *)
Definition taken_for_prime (n : mp) (bases : list mp) (q : Z) : Prop :=
  ~ has_small_factor (screen_limit n) q /\ exists p, becomes n p q /\ forall b, In b bases -> mr_passes p (mpval b).

(** Intermediate products have room in buffers as long as [n] for moduli up to [q] (C30): n is made of whole limbs or q is small enough. *)
Definition room_for (n : mp) (q : Z) : Prop := mp_len n mod LB = 0 \/ q * q + mg_radix n * q <= mg_radix n * 256 ^ mp_len n.
End Spec.

(** Primes just below a power of the limb base, for limbs of 64 and 32 bits. *)
Definition missed_prime (l64 : bool) : Z := if l64 then 2 ^ 128 - 614889782588492439 else 2 ^ 64 - 223092933.
