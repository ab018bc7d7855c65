(** Specification of the prime wheel sieve: property C40. *)
From Coq Require Import ZArith List.
Require Import Verif.Spec Verif.Monad.
Import ListNotations.
Open Scope Z_scope.

(** The primes the wheel sieves out: those up to 47 with 64 bit limbs, those up to 23 with 32 bit limbs. *)
Definition wheel_primes {c : cfg} : list Z :=
  if limb64 c then [2; 3; 5; 7; 11; 13; 17; 19; 23; 29; 31; 37; 41; 43; 47] else [2; 3; 5; 7; 11; 13; 17; 19; 23].
(** Their product, the wheel's primorial. *)
Definition wheel_primorial {c : cfg} : Z := fold_right Z.mul 1 wheel_primes.

(** No wheel prime divides [x]. *)
Definition unsieved {c : cfg} (x : Z) : Prop := forall p, In p wheel_primes -> ~ (p | x).

(** [enumerates x a ds]: adding the [ds] one after the other to [x] visits, in increasing order and without omission, the
    unsieved numbers from [a] on. *)
Fixpoint enumerates {c : cfg} (x a : Z) (ds : list Z) : Prop :=
  match ds with
  | [] => True
  | d :: ds => a <= x + d /\ unsieved (x + d) /\ (forall z, a <= z < x + d -> ~ unsieved z) /\
               enumerates (x + d) (x + d + 1) ds
  end.

(** The number reached after the first [k] of the [ds]. *)
Definition candidate (x : Z) (ds : list Z) (k : nat) : Z := x + fold_right Z.add 0 (firstn k ds).

(** [v] is ascending. *)
Definition ascending (v : list Z) : Prop := forall i j, 0 <= i <= j -> j < zlen v -> nth (Z.to_nat i) v 0 <= nth (Z.to_nat j) v 0.
