(** Specification vocabulary for the theorems about the screening of prime candidates and the Miller-Rabin test. [prime]
    is the standard library's. *)
From Coq Require Import ZArith List Znumtheory.
Require Import Verif.Spec Verif.Monad Verif.ModelBuf.
Open Scope Z_scope.

(** The largest prime screened for, depending on the number of bytes the candidate's limbs take. *)
Definition screen_limit {c : cfg} (p : mp) : Z :=
  let len := LB * nlimbs p in
  if len <? 8 then 29 else if len <? 16 then 53 else if len <? 32 then 101 else if len <? 64 then 193
  else if len <? 128 then 379 else if len <? 256 then 739 else 1471.

(** [p] has a prime factor of at most [limit]. *)
Definition has_small_factor (limit p : Z) : Prop := exists q, prime q /\ q <= limit /\ (q | p).

(** [p] is a strong probable prime to the base [a]: with p - 1 = 2^s d and d odd, a^d is 1 modulo p or one of
    a^d, a^(2 d), ..., a^(2^(s-1) d) is -1 modulo p. *)
Definition strong_probable_prime (p a : Z) : Prop :=
  exists s d, 0 <= s /\ p - 1 = 2 ^ s * d /\ Z.odd d = true /\
    (a ^ d mod p = 1 \/ exists r, 0 <= r < s /\ a ^ (2 ^ r * d) mod p = p - 1).
