(** C40: the prime wheel sieve, PrimeWheelSieve in src/prime_impl.rs.

    SpecSieve.v: [wheel_primes], the primes sieved out; [unsieved x], none of them divides [x]; [enumerates x a ds], adding
    the [ds] one after the other to [x] visits, in increasing order and without omission, the unsieved numbers from [a]
    on; [candidate x ds k], the number reached after the first [k] of them. *)
From Coq Require Import ZArith List Lia Znumtheory.
Require Import Verif.Spec Verif.Monad Verif.ModelLimb Verif.ModelBuf Verif.SpecBuf Verif.SpecSieve Verif.ModelSieve Verif.SieveProofs.
Import ListNotations.
Open Scope Z_scope.

Ltac okmp := split; [repeat constructor; vm_compute; congruence|vm_compute; reflexivity].

(** A wheel started at any lower bound, of any length, never panics, and the deltas from any number of calls enumerate the
    unsieved numbers not less than the bound and not less than 2. *)
Theorem C40_enumerates : forall (c : cfg) n k, mp_ok n ->
  yields (let! w := lvl1_start_geq_than n in lvl1_produce_deltas k w) (fun '(ds, _) =>
    length ds = k /\ enumerates (mpval n) (Z.max (mpval n) 2) ds).
Proof. exact sieve_correct. Qed.
Print Assumptions C40_enumerates.

(** Hence no prime from the bound on is skipped, other than the wheel primes. *)
Theorem C40_no_prime_skipped : forall (c : cfg) n k q, mp_ok n -> (0 < k)%nat -> prime q -> ~ In q wheel_primes -> mpval n <= q ->
  yields (let! w := lvl1_start_geq_than n in lvl1_produce_deltas k w) (fun '(ds, _) =>
    length ds = k /\ (q <= candidate (mpval n) ds k -> exists i, (0 < i <= k)%nat /\ q = candidate (mpval n) ds i)).
Proof. exact sieve_no_prime_skipped. Qed.
Print Assumptions C40_no_prime_skipped.

(** Each candidate is coprime to the wheel's primorial, they strictly increase, and none of them is 0 or 1. *)
Theorem C40_candidates : forall (c : cfg) n k, mp_ok n ->
  yields (let! w := lvl1_start_geq_than n in lvl1_produce_deltas k w) (fun '(ds, _) =>
    forall i, (0 < i <= k)%nat -> Z.gcd (candidate (mpval n) ds i) wheel_primorial = 1 /\ mpval n <= candidate (mpval n) ds i /\
      2 <= candidate (mpval n) ds i /\ forall j, (0 < j < i)%nat -> candidate (mpval n) ds j < candidate (mpval n) ds i).
Proof. exact sieve_candidates. Qed.
Print Assumptions C40_candidates.

(** The wheel primes are the primes up to a limit, and being unsieved is being coprime to their product. *)
Theorem C40_wheel_primes : forall (c : cfg) p, In p wheel_primes <-> prime p /\ p <= (if limb64 c then 47 else 23).
Proof. exact wheel_primes_are. Qed.
Print Assumptions C40_wheel_primes.
Theorem C40_unsieved_coprime : forall (c : cfg) y, unsieved y <-> Z.gcd y wheel_primorial = 1.
Proof. exact unsieved_coprime. Qed.
Print Assumptions C40_unsieved_coprime.

(** The two binary searches find the first entry of an ascending table that is not less than the value. *)
Theorem C40_search : forall (c : cfg) v val, 0 < zlen v -> 2 * zlen v < 2 ^ UW -> ascending v ->
  (forall i, 0 <= i < zlen v -> 0 <= nth (Z.to_nat i) v 0 < 256) -> 0 <= val < 256 -> val <= nth (Z.to_nat (zlen v - 1)) v 0 ->
  yields (ct_find_first_ge_than v val) (fun i =>
    0 <= i < zlen v /\ val <= nth (Z.to_nat i) v 0 /\ forall j, 0 <= j < i -> nth (Z.to_nat j) v 0 < val).
Proof. exact find_ct_correct. Qed.
Print Assumptions C40_search.
Theorem C40_search_const : forall (c : cfg) v val, 0 < zlen v -> 2 * zlen v < 2 ^ UW -> ascending v ->
  val <= nth (Z.to_nat (zlen v - 1)) v 0 ->
  yields (cnst_find_first_ge_than v val) (fun i =>
    0 <= i < zlen v /\ val <= nth (Z.to_nat i) v 0 /\ forall j, 0 <= j < i -> nth (Z.to_nat j) v 0 < val).
Proof. exact find_cnst_correct. Qed.
Print Assumptions C40_search_const.

(** The hypotheses can be met: bounds at and around the wrap of the wheel, and 0. *)
Example C40_example : let c := mkcfg true false true true in
  mp_ok (NE [wheel_primorial - 2; 5]) /\
  returns (let! w := lvl1_start_geq_than (NE [wheel_primorial - 2]) in
           let! '(ds, _) := lvl1_produce_deltas 5 w in ret ds) [1; 2; 52; 6; 2] /\
  returns (let! w := lvl1_start_geq_than (LE [0]) in let! '(ds, _) := lvl1_produce_deltas 3 w in ret ds) [53; 6; 2].
Proof. cbv zeta. split; [okmp|]. split; vm_compute; reflexivity. Qed.
Example C40_example_prime : prime 53 /\ forall c : cfg, ~ In 53 wheel_primes.
Proof.
  split; [apply prime_check; [lia|vm_compute; reflexivity]|].
  intros c H. unfold wheel_primes in H. destruct (limb64 c); cbn in H; decompose [or] H; congruence.
Qed.
Example C40_example_search : ascending FIRST_PRIMES.
Proof.
  assert (X : forallb (fun i => forallb (fun j => Nat.ltb j i || (nth i FIRST_PRIMES 0 <=? nth j FIRST_PRIMES 0))%bool (seq 0 15)) (seq 0 15) = true)
    by (vm_compute; reflexivity).
  intros i j Hi Hj. change (zlen FIRST_PRIMES) with 15 in Hj. rewrite forallb_forall in X.
  specialize (X (Z.to_nat i)). rewrite forallb_forall in X. pose proof (X ltac:(apply in_seq; lia) (Z.to_nat j) ltac:(apply in_seq; lia)) as Y.
  apply Bool.orb_true_iff in Y. destruct Y as [Y|Y]; [apply PeanoNat.Nat.ltb_lt in Y; lia|]. apply Z.leb_le in Y. exact Y.
Qed.
