(** Theorems about sequences of calls, continued: C53, searching for primes, and C54, making RSA keys. The programs are in SpecApp2.v, [strong_probable_prime],
    [has_small_factor] and [screen_limit] in SpecPrime.v, [prime] is the standard library's. *)
From Coq Require Import ZArith Znumtheory List Lia.
Require Import Verif.Spec Verif.Monad Verif.ModelLimb Verif.ModelBuf Verif.SpecBuf Verif.SpecMont Verif.SpecEuclid Verif.SpecPrime Verif.ModelSieve Verif.SpecSieve Verif.ModelMont Verif.SpecInv Verif.SpecSteps
  Verif.SpecApp Verif.SpecApp2 Verif.InvFacts Verif.MontFine Verif.PrimeFine Verif.AppProofs2.
Import ListNotations.
Open Scope Z_scope.

(** ** C53: probable primes *)

(** The unit tests' way to call the Miller-Rabin test tells whether the candidate is a strong probable prime to the base, which
    need not be reduced. Missing: candidates for which C29 and C30 are refuted, and such whose length is not a multiple of the
    limb size. *)
Theorem C53_probable_prime_partial : forall (c : cfg) rx mb s0 s1 p base, exp_modulus p -> 2 < mpval p -> mp_len p mod LB = 0 ->
  residue_buf p base -> test_buffers p rx mb s0 s1 ->
  yields (is_probable_prime rx mb s0 s1 p base) (fun b => b = true <-> strong_probable_prime (mpval p) (mpval base)).
Proof. exact @probable_prime_correct. Qed.
Print Assumptions C53_probable_prime_partial.

(** For all other odd candidates it does not panic, and the answer is right unless a carry gets lost. Missing: lengths which are not a
    multiple of the limb size. *)
Theorem C53_probable_prime_any_partial : forall (c : cfg) rx mb s0 s1 p base, exp_modulus_any p -> 2 < mpval p -> mp_len p mod LB = 0 ->
  residue_buf p base -> test_buffers p rx mb s0 s1 ->
  yields (is_probable_prime rx mb s0 s1 p base) (fun b => test_fine p (mpval base) -> (b = true <-> strong_probable_prime (mpval p) (mpval base))).
Proof. exact @probable_prime_any. Qed.
Print Assumptions C53_probable_prime_any_partial.

(** Sieving, screening and testing from n on: what is found has no small factors, is a strong probable prime to all the bases,
    and no prime from n on has been passed over; if the search is given up after k candidates, then the next prime is further
    than k away. Missing: as above, the first k candidates having to stay clear of the refuted range. *)
Theorem C53_search_partial : forall (c : cfg) n k bases rx mb s0 s1, mp_ok n -> 2 <= nlimbs n -> mp_len n mod LB = 0 -> gcd_len_ok (LB * nlimbs n) ->
  (B + 1) * (mpval n + Z.of_nat k * wheel_primorial) <= B * mg_radix n -> screen_limit n < mpval n -> test_buffers n rx mb s0 s1 ->
  (forall b, In b bases -> residue_buf n b /\ 0 < mpval b < mpval n) ->
  yields (let! w := lvl1_start_geq_than n in prime_search k bases rx mb s0 s1 n w) (fun r => match r with
    | Some p => becomes n p (mpval p) /\ mpval n <= mpval p /\ ~ has_small_factor (screen_limit n) (mpval p) /\
                (forall b, In b bases -> strong_probable_prime (mpval p) (mpval b)) /\ forall q, prime q -> mpval n <= q -> mpval p <= q
    | None => forall q, prime q -> mpval n <= q -> mpval n + Z.of_nat k <= q
    end).
Proof. exact @search_correct. Qed.
Print Assumptions C53_search_partial.

(** The same for candidates up to the maximum a buffer can hold: a prime is passed over only if a carry gets lost in testing it, and a
    number failing the test for one of the bases found only if a carry gets lost. *)
Theorem C53_search_any_partial : forall (c : cfg) n k bases rx mb s0 s1, mp_ok n -> 2 <= nlimbs n -> mp_len n mod LB = 0 -> gcd_len_ok (LB * nlimbs n) ->
  mpval n + Z.of_nat k * wheel_primorial <= mg_radix n -> screen_limit n < mpval n -> test_buffers n rx mb s0 s1 ->
  (forall b, In b bases -> residue_buf n b /\ 0 < mpval b < mpval n) ->
  yields (let! w := lvl1_start_geq_than n in prime_search k bases rx mb s0 s1 n w) (fun r => match r with
    | Some p => becomes n p (mpval p) /\ mpval n <= mpval p < mpval n + Z.of_nat k * wheel_primorial /\ ~ has_small_factor (screen_limit n) (mpval p) /\
                (forall b, In b bases -> test_fine p (mpval b) -> strong_probable_prime (mpval p) (mpval b)) /\
                forall q, prime q -> mpval n <= q -> candidate_fine n bases q -> mpval p <= q
    | None => forall q, prime q -> mpval n <= q -> candidate_fine n bases q -> mpval n + Z.of_nat k <= q
    end).
Proof. exact @search_any. Qed.
Print Assumptions C53_search_any_partial.

(** ** C54: RSA keys *)

(** From primes p and q, in buffers of equal length, and an exponent e coprime to the least common multiple of p - 1 and q - 1, the modulus
    p q and the inverse of e are made. [n] and [l] are what the buffers [n0] and [l0] end up as. Missing: the buffers and numbers for which
    C36 and C37 are refuted. *)
Theorem C54_rsa_key_partial : forall (c : cfg) p lp q lq n n0 l l0 scr e s0 s1 s2 s3 o t,
  mp_ok p -> mp_ok q -> 2 < mpval p -> 1 < mpval q ->
  mp_ok n -> mp_ok n0 -> same_shape n n0 -> mpval n0 = mpval p -> mpval n = mpval p * mpval q ->
  mp_len p = mp_len q -> 0 < lp <= mp_len p -> 0 < lq <= mp_len q -> lp <= mp_len n -> mpval p < 256 ^ lp -> mpval q < 256 ^ lq -> gcd_len_ok (mp_len p) ->
  mp_ok l -> mp_ok l0 -> same_shape l l0 -> mpval l = Z.lcm (mpval p - 1) (mpval q - 1) -> mp_ok scr -> kind_of scr = kind_of q ->
  lp + lq <= mp_len l -> lp + lq <= mp_len scr ->
  (kind_of q = KNE -> (lp + lq) mod LB = 0 /\ lp + lq + (ct_mp_limbs_align_len (Z.max lp lq) - Z.max lp lq) <= mp_len l) ->
  mp_ok e -> mut_compat e l -> scratch_ok l s0 -> scratch_ok l s1 -> scratch_ok l s2 -> scratch_ok l s3 -> gcd_len_ok (LB * nlimbs l) ->
  mpval l = o * 2 ^ t -> Z.odd o = true -> 0 <= t -> o <= B ^ (nlimbs l - 1) ->
  liftable (mpval e) (8 * mp_len l - 1) -> liftable o (8 * mp_len l - 1) -> Z.gcd (mpval l) (mpval e) = 1 ->
  yields (rsa_key p lp q lq n0 l0 scr e (s0, s1, s2, s3)) (fun '(n', d) =>
    n' = n /\ mp_ok d /\ same_shape e d /\ is_inverse (Z.lcm (mpval p - 1) (mpval q - 1)) (mpval e) (mpval d)).
Proof. exact @rsa_key_correct. Qed.
Print Assumptions C54_rsa_key_partial.

(** Without the spare limb, if the residues of the inversion fit (C34). *)
Theorem C54_rsa_key_any_partial : forall (c : cfg) p lp q lq n n0 l l0 scr e s0 s1 s2 s3 o t,
  mp_ok p -> mp_ok q -> 2 < mpval p -> 1 < mpval q ->
  mp_ok n -> mp_ok n0 -> same_shape n n0 -> mpval n0 = mpval p -> mpval n = mpval p * mpval q ->
  mp_len p = mp_len q -> 0 < lp <= mp_len p -> 0 < lq <= mp_len q -> lp <= mp_len n -> mpval p < 256 ^ lp -> mpval q < 256 ^ lq -> gcd_len_ok (mp_len p) ->
  mp_ok l -> mp_ok l0 -> same_shape l l0 -> mpval l = Z.lcm (mpval p - 1) (mpval q - 1) -> mp_ok scr -> kind_of scr = kind_of q ->
  lp + lq <= mp_len l -> lp + lq <= mp_len scr ->
  (kind_of q = KNE -> (lp + lq) mod LB = 0 /\ lp + lq + (ct_mp_limbs_align_len (Z.max lp lq) - Z.max lp lq) <= mp_len l) ->
  mp_ok e -> mut_compat e l -> scratch_ok l s0 -> scratch_ok l s1 -> scratch_ok l s2 -> scratch_ok l s3 -> gcd_len_ok (LB * nlimbs l) ->
  mpval l = o * 2 ^ t -> Z.odd o = true -> 0 <= t -> residues_fit o (nlimbs l - 1) (mpval e) ->
  liftable (mpval e) (8 * mp_len l - 1) -> liftable o (8 * mp_len l - 1) -> Z.gcd (mpval l) (mpval e) = 1 ->
  yields (rsa_key p lp q lq n0 l0 scr e (s0, s1, s2, s3)) (fun '(n', d) =>
    n' = n /\ mp_ok d /\ same_shape e d /\ is_inverse (Z.lcm (mpval p - 1) (mpval q - 1)) (mpval e) (mpval d)).
Proof. exact @rsa_key_any. Qed.
Print Assumptions C54_rsa_key_any_partial.

(** With such a key, encryption and decryption give back the message. Missing: in addition the moduli and buffers for which C32 is refuted. *)
Theorem C54_rsa_key_round_trip_partial : forall (c : cfg) p lp q lq n n0 l l0 scr e s0 s1 s2 s3 o t e' ke kd m r r2 t1 t2,
  mp_ok p -> mp_ok q -> prime (mpval p) -> prime (mpval q) -> mpval p <> mpval q -> 2 < mpval p ->
  mp_ok n0 -> same_shape n n0 -> mpval n0 = mpval p -> mpval n = mpval p * mpval q ->
  mp_len p = mp_len q -> 0 < lp <= mp_len p -> 0 < lq <= mp_len q -> lp <= mp_len n -> mpval p < 256 ^ lp -> mpval q < 256 ^ lq -> gcd_len_ok (mp_len p) ->
  mp_ok l -> mp_ok l0 -> same_shape l l0 -> mpval l = Z.lcm (mpval p - 1) (mpval q - 1) -> mp_ok scr -> kind_of scr = kind_of q ->
  lp + lq <= mp_len l -> lp + lq <= mp_len scr ->
  (kind_of q = KNE -> (lp + lq) mod LB = 0 /\ lp + lq + (ct_mp_limbs_align_len (Z.max lp lq) - Z.max lp lq) <= mp_len l) ->
  mp_ok e -> mut_compat e l -> scratch_ok l s0 -> scratch_ok l s1 -> scratch_ok l s2 -> scratch_ok l s3 -> gcd_len_ok (LB * nlimbs l) ->
  mpval l = o * 2 ^ t -> Z.odd o = true -> 0 <= t -> o <= B ^ (nlimbs l - 1) ->
  liftable (mpval e) (8 * mp_len l - 1) -> liftable o (8 * mp_len l - 1) -> Z.gcd (mpval l) (mpval e) = 1 ->
  mp_ok e' -> mpval e' = mpval e -> 8 * mp_len e' <= ke -> 8 * mp_len e <= kd ->
  exp_modulus n -> residue_buf n m -> mpval m < mpval n -> result_buf n r -> result_buf n r2 -> exp_scratch n t1 -> exp_scratch n t2 ->
  yields (let! '(n', d) := rsa_key p lp q lq n0 l0 scr e (s0, s1, s2, s3) in
          let! '(e1, x, _, _) := ct_exp_mod_odd_mp_mp r m n' e' ke t1 in
          let! '(e2, y, _, _) := ct_exp_mod_odd_mp_mp r2 x n' d kd t2 in ret (e1, e2, y))
    (fun '(e1, e2, y) => e1 = Ok tt /\ e2 = Ok tt /\ becomes r2 y (mpval m)).
Proof. exact @rsa_key_round_trip. Qed.
Print Assumptions C54_rsa_key_round_trip_partial.

(** For all other moduli, if no carry gets lost in encrypting the message and decrypting it again. *)
Theorem C54_rsa_key_round_trip_any_partial : forall (c : cfg) p lp q lq n n0 l l0 scr e s0 s1 s2 s3 o t e' ke kd m r r2 t1 t2,
  mp_ok p -> mp_ok q -> prime (mpval p) -> prime (mpval q) -> mpval p <> mpval q -> 2 < mpval p ->
  mp_ok n0 -> same_shape n n0 -> mpval n0 = mpval p -> mpval n = mpval p * mpval q ->
  mp_len p = mp_len q -> 0 < lp <= mp_len p -> 0 < lq <= mp_len q -> lp <= mp_len n -> mpval p < 256 ^ lp -> mpval q < 256 ^ lq -> gcd_len_ok (mp_len p) ->
  mp_ok l -> mp_ok l0 -> same_shape l l0 -> mpval l = Z.lcm (mpval p - 1) (mpval q - 1) -> mp_ok scr -> kind_of scr = kind_of q ->
  lp + lq <= mp_len l -> lp + lq <= mp_len scr ->
  (kind_of q = KNE -> (lp + lq) mod LB = 0 /\ lp + lq + (ct_mp_limbs_align_len (Z.max lp lq) - Z.max lp lq) <= mp_len l) ->
  mp_ok e -> mut_compat e l -> scratch_ok l s0 -> scratch_ok l s1 -> scratch_ok l s2 -> scratch_ok l s3 -> gcd_len_ok (LB * nlimbs l) ->
  mpval l = o * 2 ^ t -> Z.odd o = true -> 0 <= t -> residues_fit o (nlimbs l - 1) (mpval e) ->
  liftable (mpval e) (8 * mp_len l - 1) -> liftable o (8 * mp_len l - 1) -> Z.gcd (mpval l) (mpval e) = 1 ->
  mp_ok e' -> mpval e' = mpval e -> 8 * mp_len e' <= ke -> 8 * mp_len e <= kd ->
  exp_modulus_any n -> residue_buf n m -> mpval m < mpval n -> result_buf n r -> result_buf n r2 -> exp_scratch n t1 -> exp_scratch n t2 ->
  exp_fine n (mpval m) e' ke -> (forall d, mp_ok d -> same_shape e d -> is_inverse (Z.lcm (mpval p - 1) (mpval q - 1)) (mpval e) (mpval d) -> exp_fine n (mpval m ^ expo e' ke mod mpval n) d kd) ->
  yields (let! '(n', d) := rsa_key p lp q lq n0 l0 scr e (s0, s1, s2, s3) in
          let! '(e1, x, _, _) := ct_exp_mod_odd_mp_mp r m n' e' ke t1 in
          let! '(e2, y, _, _) := ct_exp_mod_odd_mp_mp r2 x n' d kd t2 in ret (e1, e2, y))
    (fun '(e1, e2, y) => e1 = Ok tt /\ e2 = Ok tt /\ becomes r2 y (mpval m)).
Proof. exact @rsa_key_round_trip_any. Qed.
Print Assumptions C54_rsa_key_round_trip_any_partial.

(** A concrete case meeting the hypotheses: from 3480 on, the first candidate is 3481 = 59 * 59, which passes the screening for factors
    up to 53 but not the Miller-Rabin test; the search ends at the next one, 3491. *)
Ltac okmp := split; [repeat constructor; vm_compute; congruence|vm_compute; reflexivity].
Example ex_search : let c := mkcfg false false true true in
  let n := BE [0; 0; 0; 0; 0; 0; 0x0d; 0x98] in let base := LE [2; 0; 0; 0; 0; 0; 0; 0] in let rx := NE [7; 7] in let s := [5; 5] in
  mp_ok n /\ 2 <= nlimbs n /\ mp_len n mod LB = 0 /\ gcd_len_ok (LB * nlimbs n) /\
  (B + 1) * (mpval n + Z.of_nat 3 * wheel_primorial) <= B * mg_radix n /\ screen_limit n < mpval n /\ test_buffers n rx rx s s /\
  residue_buf n base /\ 0 < mpval base < mpval n /\
  snd (let! w := lvl1_start_geq_than n in prime_search 3 [base] rx rx s s n w) = Some (Some (BE [0; 0; 0; 0; 0; 0; 0x0d; 0xa3])).
Proof.
  cbv zeta. split; [okmp|]. split; [vm_compute; congruence|]. split; [reflexivity|]. split; [vm_compute; reflexivity|]. split; [vm_compute; congruence|].
  split; [vm_compute; reflexivity|]. split.
  { split; [split; [okmp|left; reflexivity]|]. split; [split; [okmp|left; reflexivity]|]. split; [okmp|]. split; [okmp|]. split; vm_compute; congruence. }
  split; [split; [okmp|left; reflexivity]|]. split; [split; vm_compute; reflexivity|]. vm_compute. reflexivity.
Qed.

(** A prime above the guard of C30, which testing for the base 2 finds without losing a carry. *)
Example ex_search_any : let c := mkcfg false false true true in
  let n := NE [0xf2b3df59; 0xffffffff] in let base := LE [2; 0; 0; 0; 0; 0; 0; 0] in let rx := NE [7; 7] in let s := [5; 5] in
  mp_ok n /\ 2 <= nlimbs n /\ mp_len n mod LB = 0 /\ gcd_len_ok (LB * nlimbs n) /\ ~ mg_carry_ok n /\
  mpval n + Z.of_nat 1 * wheel_primorial <= mg_radix n /\ screen_limit n < mpval n /\ test_buffers n rx rx s s /\
  residue_buf n base /\ 0 < mpval base < mpval n /\ test_fine n (mpval base) /\
  snd (let! w := lvl1_start_geq_than n in prime_search 1 [base] rx rx s s n w) = Some (Some n).
Proof.
  cbv zeta. split; [okmp|]. split; [vm_compute; congruence|]. split; [reflexivity|]. split; [vm_compute; reflexivity|]. split; [intros X; vm_compute in X; congruence|].
  split; [vm_compute; congruence|]. split; [vm_compute; reflexivity|]. split.
  { split; [split; [okmp|left; reflexivity]|]. split; [split; [okmp|left; reflexivity]|]. split; [okmp|]. split; [okmp|]. split; vm_compute; congruence. }
  split; [split; [okmp|left; reflexivity]|]. split; [split; vm_compute; reflexivity|]. split; [|vm_compute; reflexivity].
  split; [apply carry_ok_fine; vm_compute; congruence|]. apply (fine_chk_sound _ _ _ _ 63 1); [vm_compute; reflexivity|vm_compute; congruence|vm_compute; reflexivity|vm_compute; reflexivity].
Qed.

(** p = 11, q = 7, l = 30 = 15 * 2, e = 7, d = 13, in buffers of two limbs. *)
Example ex_rsa_key : let c := mkcfg false false true true in
  let p := BE [11] in let q := LE [7] in let n := NE [77; 0] in let n0 := NE [11; 0] in let l := BE [0; 0; 0; 0; 0; 0; 0; 30] in
  let l0 := BE [1; 2; 3; 4; 5; 6; 7; 8] in let e := LE [7; 0; 0; 0; 0; 0; 0; 0] in let s := [5; 5] in
  let m := BE [0; 0; 0; 0; 0; 0; 0; 42] in let r := NE [6; 6] in
  (mp_ok p /\ mp_ok q /\ 2 < mpval p /\ mp_ok n0 /\ same_shape n n0 /\ mpval n0 = mpval p /\ mpval n = mpval p * mpval q /\ mp_len p = mp_len q /\
   0 < 1 <= mp_len p /\ 0 < 1 <= mp_len q /\ 1 <= mp_len n /\ mpval p < 256 ^ 1 /\ mpval q < 256 ^ 1 /\ gcd_len_ok (mp_len p)) /\
  (mp_ok l /\ mp_ok l0 /\ same_shape l l0 /\ mpval l = Z.lcm (mpval p - 1) (mpval q - 1) /\ mp_ok (LE [0; 0]) /\ 1 + 1 <= mp_len l /\ kind_of q <> KNE) /\
  (mp_ok e /\ mut_compat e l /\ scratch_ok l s /\ gcd_len_ok (LB * nlimbs l) /\ mpval l = 15 * 2 ^ 1 /\ 15 <= B ^ (nlimbs l - 1) /\
   liftable (mpval e) (8 * mp_len l - 1) /\ liftable 15 (8 * mp_len l - 1) /\ Z.gcd (mpval l) (mpval e) = 1) /\
  (exp_modulus n /\ residue_buf n m /\ mpval m < mpval n /\ result_buf n r /\ exp_scratch n s) /\
  snd (rsa_key p 1 q 1 n0 l0 (LE [0; 0]) e (s, s, s, s)) = Some (n, LE [13; 0; 0; 0; 0; 0; 0; 0]).
Proof.
  cbv zeta. split; [|split; [|split; [|split]]].
  - split; [okmp|]. split; [okmp|]. split; [reflexivity|]. split; [okmp|]. split; [split; reflexivity|]. split; [reflexivity|]. split; [reflexivity|]. split; [reflexivity|].
    split; [split; vm_compute; congruence|]. split; [split; vm_compute; congruence|]. split; [vm_compute; congruence|]. split; [reflexivity|]. split; reflexivity.
  - split; [okmp|]. split; [okmp|]. split; [split; reflexivity|]. split; [reflexivity|]. split; [okmp|]. split; [vm_compute; congruence|discriminate].
  - split; [okmp|]. split; [split; left; vm_compute; congruence|]. split; [split; [okmp|vm_compute; congruence]|]. split; [reflexivity|]. split; [reflexivity|].
    split; [vm_compute; congruence|]. split; [apply liftable_small; vm_compute; congruence|]. split; [apply liftable_small; vm_compute; congruence|reflexivity].
  - split; [split; [okmp|]; split; [reflexivity|]; split; [vm_compute; congruence|]; split; [vm_compute; congruence|reflexivity]|].
    split; [split; [okmp|left; reflexivity]|]. split; [reflexivity|].
    split; [split; [split; [okmp|left; reflexivity]|left; split; [vm_compute; congruence|reflexivity]]|].
    split; [okmp|]. split; [vm_compute; congruence|]. left. split; [vm_compute; congruence|reflexivity].
  - vm_compute. reflexivity.
Qed.
