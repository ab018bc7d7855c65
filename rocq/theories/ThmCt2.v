(** More theorems about constant time: greatest common divisors, inversion, primality tests (property C43; vocabulary: see ThmCt.v).
    [same_twos]: the two integers are divisible by the same powers of two. *)
From Coq Require Import ZArith List Bool Lia.
Require Import Verif.Spec Verif.Monad Verif.ModelLimb Verif.ModelBuf Verif.SpecBuf Verif.ModelCmp Verif.ModelAdd Verif.ModelShift
  Verif.ModelMul Verif.ModelDiv Verif.ModelMont Verif.ModelEuclid Verif.ModelInv Verif.ModelPrime Verif.SpecCt Verif.CtTop2.
Import ListNotations.
Open Scope Z_scope.

(** Greatest common divisors: the values of both operands are secret, except for the number of times two divides both of them.
    Two runs that are both successful show the same trace. *)
Theorem C43_gcd : forall (c : cfg), debug c = false ->
  (forall f f' g g' x y x' y', same_shape f f' -> same_shape g g' ->
    returns (ct_gcd_odd_mp_mp f g) (Ok tt, x, y) -> returns (ct_gcd_odd_mp_mp f' g') (Ok tt, x', y') ->
    trace (ct_gcd_odd_mp_mp f g) = trace (ct_gcd_odd_mp_mp f' g')) /\
  (forall a a' b b' x y x' y', same_shape a a' -> same_shape b b' -> mp_ok a -> mp_ok a' -> mp_ok b -> mp_ok b' ->
    same_twos (Z.gcd (mpval a) (mpval b)) (Z.gcd (mpval a') (mpval b')) ->
    returns (ct_gcd_mp_mp a b) (Ok tt, x, y) -> returns (ct_gcd_mp_mp a' b') (Ok tt, x', y') ->
    trace (ct_gcd_mp_mp a b) = trace (ct_gcd_mp_mp a' b')).
Proof. exact ct_gcd. Qed.
Print Assumptions C43_gcd.

(** With buffers of native limbs, not even that number shows in the branches and kinds of memory accesses: only the addresses of the
    limbs depend on it. *)
Theorem C43_gcd_operations : forall (c : cfg), debug c = false -> forall l l' m m' x y x' y', zlen l = zlen l' -> zlen m = zlen m' ->
  mp_ok (NE l) -> mp_ok (NE l') -> mp_ok (NE m) -> mp_ok (NE m') ->
  returns (ct_gcd_mp_mp (NE l) (NE m)) (Ok tt, x, y) -> returns (ct_gcd_mp_mp (NE l') (NE m')) (Ok tt, x', y') ->
  operations (ct_gcd_mp_mp (NE l) (NE m)) = operations (ct_gcd_mp_mp (NE l') (NE m')).
Proof. exact ct_gcd_operations. Qed.
Print Assumptions C43_gcd_operations.

(** Inversions: modulo odd numbers, operand and modulus are secret; modulo powers of two, operand and exponent are secret, public is
    the bound [m] on the exponent; modulo arbitrary numbers, operand and modulus are secret, except for the number of times two divides
    the modulus.  Two runs that are both successful show the same trace.  (That an inverse doesn't exist is reported early.) *)
Theorem C43_inverse : forall (c : cfg), debug c = false ->
  (forall r r' a a' n n' s s' t t' x y u v x' y' u' v', same_shape r r' -> same_shape a a' -> same_shape n n' -> zlen s = zlen s' -> zlen t = zlen t' ->
    returns (ct_inv_mod_odd_mp_mp r a n s t) (Ok tt, x, y, u, v) -> returns (ct_inv_mod_odd_mp_mp r' a' n' s' t') (Ok tt, x', y', u', v') ->
    trace (ct_inv_mod_odd_mp_mp r a n s t) = trace (ct_inv_mod_odd_mp_mp r' a' n' s' t')) /\
  (forall r r' a a' p p' m s s' x x', same_shape r r' -> same_shape a a' -> zlen s = zlen s' ->
    returns (ct_inv_mod_pow2_mp r a p m s) x -> returns (ct_inv_mod_pow2_mp r' a' p' m s') x' ->
    trace (ct_inv_mod_pow2_mp r a p m s) = trace (ct_inv_mod_pow2_mp r' a' p' m s')) /\
  (forall a a' n n' s0 s1 s2 s3 s0' s1' s2' s3' x y x' y', same_shape a a' -> same_shape n n' -> mp_ok n -> mp_ok n' ->
    zlen s0 = zlen s0' -> zlen s1 = zlen s1' -> zlen s2 = zlen s2' -> zlen s3 = zlen s3' -> same_twos (mpval n) (mpval n') ->
    returns (ct_inv_mod_mp_mp a n (s0, s1, s2, s3)) (Ok tt, x, y) -> returns (ct_inv_mod_mp_mp a' n' (s0', s1', s2', s3')) (Ok tt, x', y') ->
    trace (ct_inv_mod_mp_mp a n (s0, s1, s2, s3)) = trace (ct_inv_mod_mp_mp a' n' (s0', s1', s2', s3'))).
Proof. exact ct_inverse. Qed.
Print Assumptions C43_inverse.

(** With the modulus in a buffer of native limbs, that number shows in the addresses only. *)
Theorem C43_inverse_operations : forall (c : cfg), debug c = false -> forall a a' l l' s0 s1 s2 s3 s0' s1' s2' s3' x y x' y',
  same_shape a a' -> zlen l = zlen l' -> mp_ok (NE l) -> mp_ok (NE l') -> zlen s0 = zlen s0' -> zlen s1 = zlen s1' -> zlen s2 = zlen s2' -> zlen s3 = zlen s3' ->
  returns (ct_inv_mod_mp_mp a (NE l) (s0, s1, s2, s3)) (Ok tt, x, y) -> returns (ct_inv_mod_mp_mp a' (NE l') (s0', s1', s2', s3')) (Ok tt, x', y') ->
  operations (ct_inv_mod_mp_mp a (NE l) (s0, s1, s2, s3)) = operations (ct_inv_mod_mp_mp a' (NE l') (s0', s1', s2', s3')).
Proof. exact ct_inverse_operations. Qed.
Print Assumptions C43_inverse_operations.

(** Primality tests: candidate, base and radix are secret.  Two runs that are both successful, whatever their verdicts, show the
    same trace. *)
Theorem C43_prime : forall (c : cfg), debug c = false ->
  (forall p p' s s' t t' v v', same_shape p p' -> zlen s = zlen s' -> zlen t = zlen t' ->
    returns (ct_composite_test_small_prime_gcd_mp p s t) (Ok v) -> returns (ct_composite_test_small_prime_gcd_mp p' s' t') (Ok v') ->
    trace (ct_composite_test_small_prime_gcd_mp p s t) = trace (ct_composite_test_small_prime_gcd_mp p' s' t')) /\
  (forall a a' p p' m m' s s' t t' v v', same_shape a a' -> same_shape p p' -> same_shape m m' -> zlen s = zlen s' -> zlen t = zlen t' ->
    returns (ct_prime_test_miller_rabin_mp a p m s t) (Ok v) -> returns (ct_prime_test_miller_rabin_mp a' p' m' s' t') (Ok v') ->
    trace (ct_prime_test_miller_rabin_mp a p m s t) = trace (ct_prime_test_miller_rabin_mp a' p' m' s' t')).
Proof. exact ct_prime. Qed.
Print Assumptions C43_prime.

Ltac okmp := split; [repeat constructor; vm_compute; congruence|vm_compute; reflexivity].

(** The powers of two do show in the full trace: of a number and zero in buffers of two limbs each, the greatest common
    divisor is found by loading other limbs if the number is 1 than if it is a power of two above the lowest limb. *)
Theorem C43_gcd_address_refuted : exists (c : cfg), debug c = false /\ exists l l' m x y x' y',
  mp_ok (NE l) /\ mp_ok (NE l') /\ mp_ok (NE m) /\ zlen l = zlen l' /\
  returns (ct_gcd_mp_mp (NE l) (NE m)) (Ok tt, x, y) /\ returns (ct_gcd_mp_mp (NE l') (NE m)) (Ok tt, x', y') /\
  trace (ct_gcd_mp_mp (NE l) (NE m)) <> trace (ct_gcd_mp_mp (NE l') (NE m)).
Proof.
  exists (mkcfg false false true false). split; [reflexivity|]. exists [1; 0], [0; 1], [0; 0].
  (eexists; eexists; eexists; eexists; split; [okmp|]; split; [okmp|]; split; [okmp|]; split; [reflexivity|]; split; [vm_compute; reflexivity|];
   split; [vm_compute; reflexivity|]; vm_compute; congruence).
Qed.
Print Assumptions C43_gcd_address_refuted.

(** In big endian byte buffers, so do the branches. *)
Theorem C43_gcd_bytes_refuted : exists (c : cfg), debug c = false /\ exists l l' m x y x' y',
  mp_ok (BE l) /\ mp_ok (BE l') /\ mp_ok (BE m) /\ zlen l = zlen l' /\
  returns (ct_gcd_mp_mp (BE l) (BE m)) (Ok tt, x, y) /\ returns (ct_gcd_mp_mp (BE l') (BE m)) (Ok tt, x', y') /\
  operations (ct_gcd_mp_mp (BE l) (BE m)) <> operations (ct_gcd_mp_mp (BE l') (BE m)).
Proof.
  exists (mkcfg false false true false). split; [reflexivity|]. exists [0; 0; 0; 0; 1], [1; 0; 0; 0; 0], [0; 0; 0; 0; 0].
  (eexists; eexists; eexists; eexists; split; [okmp|]; split; [okmp|]; split; [okmp|]; split; [reflexivity|]; split; [vm_compute; reflexivity|];
   split; [vm_compute; reflexivity|]; vm_compute; congruence).
Qed.
Print Assumptions C43_gcd_bytes_refuted.

(** The existence of an inverse shows: a failing inversion has a shorter trace. *)
Theorem C43_inverse_exists_refuted : exists (c : cfg), debug c = false /\ exists r a a' n s t x y u v,
  mp_ok r /\ mp_ok a /\ mp_ok a' /\ mp_ok n /\ same_shape a a' /\
  returns (ct_inv_mod_odd_mp_mp r a n s t) (Ok tt, x, y, u, v) /\
  (exists x' y' u' v', returns (ct_inv_mod_odd_mp_mp r a' n s t) (Err InvOperandsNotCoprime, x', y', u', v')) /\
  trace (ct_inv_mod_odd_mp_mp r a n s t) <> trace (ct_inv_mod_odd_mp_mp r a' n s t).
Proof.
  exists (mkcfg false false true false). split; [reflexivity|]. exists (BE [0]), (BE [2]), (BE [3]), (BE [15]), [0], [0].
  (eexists; eexists; eexists; eexists; split; [okmp|]; split; [okmp|]; split; [okmp|]; split; [okmp|]; split; [split; vm_compute; reflexivity|]; split; [vm_compute; reflexivity|];
   split; [eexists; eexists; eexists; eexists; vm_compute; reflexivity|]; vm_compute; congruence).
Qed.
Print Assumptions C43_inverse_exists_refuted.

(** Concrete cases meeting the hypotheses. *)
Lemma odd_same_twos : forall v v', v mod 2 = 1 -> v' mod 2 = 1 -> same_twos v v'.
Proof.
  intros v v' H H' k Hk. destruct (Z.eq_dec k 0) as [->|N]; [split; intros _; apply Z.divide_1_l|].
  assert (X : forall w, w mod 2 = 1 -> ~ (2 ^ k | w)).
  { intros w Hw [q ->]. replace k with (1 + (k - 1)) in Hw by lia. rewrite Z.pow_add_r, (Z.mul_comm (2 ^ 1)), Z.mul_assoc in Hw by lia.
    change (2 ^ 1) with 2 in Hw. rewrite Z.mod_mul in Hw; lia. }
  split; intros D; exfalso; eapply X; try exact D; auto.
Qed.
Example ex_gcd_ct : let c := mkcfg false false true false in
  let a := BE [0; 12] in let b := LE [9; 0] in let a' := BE [1; 11] in let b' := LE [3; 12] in
  mp_ok a /\ mp_ok a' /\ mp_ok b /\ mp_ok b' /\ same_shape a a' /\ same_shape b b' /\
  same_twos (Z.gcd (mpval a) (mpval b)) (Z.gcd (mpval a') (mpval b')) /\
  (exists x y, returns (ct_gcd_mp_mp a b) (Ok tt, x, y) /\ mpval x = 3) /\ (exists x y, returns (ct_gcd_mp_mp a' b') (Ok tt, x, y) /\ mpval x = 3) /\
  trace (ct_gcd_mp_mp a b) = trace (ct_gcd_mp_mp a' b').
Proof.
  cbv zeta. split; [okmp|]. split; [okmp|]. split; [okmp|]. split; [okmp|]. split; [split; vm_compute; reflexivity|]. split; [split; vm_compute; reflexivity|].
  split; [apply odd_same_twos; vm_compute; reflexivity|].
  split; [eexists; eexists; split; vm_compute; reflexivity|]. split; [eexists; eexists; split; vm_compute; reflexivity|]. vm_compute; reflexivity.
Qed.
Example ex_gcd_operations : let c := mkcfg false false true false in
  (exists x y, returns (ct_gcd_mp_mp (NE [12; 0]) (NE [8; 0])) (Ok tt, x, y) /\ mpval x = 4) /\
  (exists x y, returns (ct_gcd_mp_mp (NE [0; 6]) (NE [0; 3])) (Ok tt, x, y) /\ mpval x = 3 * 2 ^ 32) /\
  trace (ct_gcd_mp_mp (NE [12; 0]) (NE [8; 0])) <> trace (ct_gcd_mp_mp (NE [0; 6]) (NE [0; 3])).
Proof.
  cbv zeta. split; [eexists; eexists; split; vm_compute; reflexivity|]. split; [eexists; eexists; split; vm_compute; reflexivity|]. vm_compute; congruence.
Qed.
Example ex_inverse_ct : let c := mkcfg false false true false in
  (exists x y u v, returns (ct_inv_mod_odd_mp_mp (BE [0]) (BE [2]) (BE [15]) [0] [0]) (Ok tt, x, y, u, v)) /\
  (exists x y u v, returns (ct_inv_mod_odd_mp_mp (BE [7]) (BE [11]) (BE [13]) [3] [4]) (Ok tt, x, y, u, v)) /\
  (exists x, returns (ct_inv_mod_pow2_mp (BE [0]) (BE [3]) 4 8 [0]) x) /\ (exists x, returns (ct_inv_mod_pow2_mp (BE [9]) (BE [5]) 7 8 [1]) x) /\
  same_twos (mpval (NE [15])) (mpval (NE [35])) /\
  (exists x y, returns (ct_inv_mod_mp_mp (BE [0; 0; 0; 4]) (NE [15]) ([0], [0], [0], [0])) (Ok tt, x, y)) /\
  (exists x y, returns (ct_inv_mod_mp_mp (BE [0; 0; 0; 8]) (NE [35]) ([0], [0], [0], [0])) (Ok tt, x, y)) /\
  (exists x y, returns (ct_inv_mod_mp_mp (BE [0; 0; 0; 5]) (NE [12]) ([0], [0], [0], [0])) (Ok tt, x, y)) /\
  operations (ct_inv_mod_mp_mp (BE [0; 0; 0; 5]) (NE [12]) ([0], [0], [0], [0])) = operations (ct_inv_mod_mp_mp (BE [0; 0; 0; 8]) (NE [35]) ([0], [0], [0], [0])).
Proof.
  cbv zeta. split; [do 4 eexists; vm_compute; reflexivity|]. split; [do 4 eexists; vm_compute; reflexivity|].
  split; [eexists; vm_compute; reflexivity|]. split; [eexists; vm_compute; reflexivity|]. split; [apply odd_same_twos; vm_compute; reflexivity|].
  split; [do 2 eexists; vm_compute; reflexivity|]. split; [do 2 eexists; vm_compute; reflexivity|]. split; [do 2 eexists; vm_compute; reflexivity|].
  vm_compute; reflexivity.
Qed.
Example ex_prime_ct : let c := mkcfg false false true false in
  (exists v, returns (ct_composite_test_small_prime_gcd_mp (BE [101]) [0] [0]) (Ok v)) /\
  (exists v, returns (ct_composite_test_small_prime_gcd_mp (BE [91]) [3] [5]) (Ok v)) /\
  (exists v, returns (ct_prime_test_miller_rabin_mp (BE [5]) (BE [13]) (BE [9]) [0] [0]) (Ok v)) /\
  (exists v, returns (ct_prime_test_miller_rabin_mp (BE [7]) (BE [15]) (BE [1]) [7] [7]) (Ok v)).
Proof. cbv zeta. split; [eexists; vm_compute; reflexivity|]. split; [eexists; vm_compute; reflexivity|]. split; eexists; vm_compute; reflexivity. Qed.
