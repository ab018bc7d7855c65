(** Programs calling the library, for the theorems about sequences of calls: testing and searching for primes. *)
From Coq Require Import ZArith List.
Require Import Verif.Spec Verif.Monad Verif.ModelLimb Verif.ModelBuf Verif.ModelAdd Verif.ModelMul Verif.ModelDiv Verif.ModelMont Verif.ModelEuclid Verif.ModelLcm Verif.ModelInv Verif.ModelPrime Verif.ModelSieve Verif.SpecSieve
  Verif.SpecBuf Verif.SpecMont Verif.SpecEuclid Verif.SpecPrime Verif.SpecApp.
Import ListNotations.
Open Scope Z_scope.

Section Programs.
Context {c : cfg}.

(** Result::unwrap(). *)
Definition unwrap {A E} (r : result A E) : M A := match r with Ok a => ret a | Err _ => panic end.

(** A round of the Miller-Rabin test: the base is reduced modulo the candidate and brought to Montgomery form. This is the
    unit tests' is_probable_prime(), prime_impl.rs:370-415, up to the buffers it allocates, which are arguments here: [rx] for
    the radix, [mb] for the base in Montgomery form, [s0] and [s1]. *)
Definition is_probable_prime (rx mb : mp) (s0 s1 : list Z) (p base : mp) : M bool :=
  let! d := mp_divisor_new p None in
  let! d := unwrap d in
  let! '(_, base) := ct_mod_mp_mp None base d in
  let! '(e, rx) := ct_montgomery_radix2_mod_n_mp rx p in
  unwrap e ;;
  let! g := ct_montgomery_neg_n0_inv_mod_l_mp p in
  let! g := unwrap g in
  let! '(e, mb) := ct_to_montgomery_form_mp mb base p g rx in
  unwrap e ;;
  let! '(e, rx) := ct_montgomery_redc_mp rx p g in
  unwrap e ;;
  let! r := ct_prime_test_miller_rabin_mp mb p rx s0 s1 in
  let! r := unwrap r in
  ret (negb (lc_unwrap r =? 0)).

(** Rounds for several bases, up to the first one failing. *)
Fixpoint all_rounds (round : mp -> M bool) (bases : list mp) : M bool :=
  match bases with
  | [] => ret true
  | b :: bases => let! good := round b in if good then all_rounds round bases else ret false
  end.

(** The search for a prime from [p] on: the sieve gives the distance to the next candidate, which is screened for small
    factors and then tested. After [k] candidates the search is given up. *)
Fixpoint prime_search (k : nat) (bases : list mp) (rx mb : mp) (s0 s1 : list Z) (p : mp) (w : lvl1) : M (option mp) :=
  match k with
  | O => ret None
  | S k =>
    let! '(d, w) := lvl1_produce_next_delta w in
    let! '(p, _) := ct_add_mp_l p d in
    let! r := ct_composite_test_small_prime_gcd_mp p s0 s1 in
    let! r := unwrap r in
    let! good := if negb (lc_unwrap r =? 0) then ret false else all_rounds (is_probable_prime rx mb s0 s1 p) bases in
    if good then ret (Some p) else prime_search k bases rx mb s0 s1 p w
  end.

(** No carry gets lost in testing [p] for being a strong probable prime to the base [a], see C30 and C39: neither in bringing the base
    to Montgomery form nor in the exponentiation. *)
Definition test_fine (p : mp) (a : Z) : Prop :=
  mg_fine p (a mod mpval p) ((mg_radix p * mg_radix p) mod mpval p) /\ mg_exp_fine p a ((mpval p - 1) / 2) (8 * mp_len p - 1).
(** The same for all the bases, the candidate being the number [q] in a buffer like [n]. *)
Definition candidate_fine (n : mp) (bases : list mp) (q : Z) : Prop :=
  forall p b, becomes n p q -> In b bases -> test_fine p (mpval b).

(** Buffers suitable for testing candidates in the buffer [n]. *)
Definition test_buffers (n rx mb : mp) (s0 s1 : list Z) : Prop :=
  residue_buf n rx /\ residue_buf n mb /\ mp_ok (NE s0) /\ mp_ok (NE s1) /\ nlimbs n <= zlen s0 /\ nlimbs n <= zlen s1.

(** Making an RSA key from the primes [p] and [q] of [lp] and [lq] bytes: [n], holding a copy of [p], is multiplied by [q], the
    primes are decremented, [l] becomes the least common multiple of these and the public exponent [e] is replaced by its
    inverse modulo [l]. Returned are the modulus and the private exponent. *)
Definition rsa_key (p : mp) (lp : Z) (q : mp) (lq : Z) (n l scr e : mp) (s : list Z * list Z * list Z * list Z) : M (mp * mp) :=
  let! n := ct_mul_trunc_mp_mp n lp q in
  let! '(p1, _) := ct_sub_mp_l p 1 in
  let! '(q1, _) := ct_sub_mp_l q 1 in
  let! '(r, l, _, _, _) := ct_lcm_mp_mp l p1 lp q1 lq scr in
  unwrap r ;;
  let! '(r, d, _) := ct_inv_mod_mp_mp e l s in
  unwrap r ;;
  ret (n, d).
End Programs.
