(** C38: the screening of prime candidates for small factors, C39: the Miller-Rabin test, src/prime_impl.rs.

    [screen_limit], [has_small_factor] and [strong_probable_prime] are defined in SpecPrime.v, [choice] in ThmLimb.v,
    [mg_radix], [len_compat], [mg_carry_ok], [mg_exp_fine] and [mg_room] in SpecMont.v, [mr_outcome] in SpecMontValue.v. [prime] is the standard library's. *)
From Coq Require Import ZArith List Lia Znumtheory.
Require Import Verif.Spec Verif.Monad Verif.ModelLimb Verif.ThmLimb Verif.ModelBuf Verif.SpecBuf Verif.SpecMont Verif.SpecMontValue Verif.SpecEuclid Verif.ModelPrime Verif.SpecPrime
  Verif.PrimeFacts2 Verif.PrimeProofs Verif.PrimeFine Verif.PrimeValue.
Import ListNotations.
Open Scope Z_scope.

Ltac okmp := split; [repeat constructor; vm_compute; congruence|vm_compute; reflexivity].

(** ** C38: screening *)

(** The candidate is reported as composite exactly if some prime up to the limit for its length divides it. *)
Theorem C38_screen : forall (c : cfg) p s0 s1, mp_ok p -> 0 < mp_len p -> mp_ok (NE s0) -> mp_ok (NE s1) ->
  nlimbs p <= zlen s0 -> nlimbs p <= zlen s1 -> gcd_len_ok (LB * nlimbs p) ->
  exists b, returns (ct_composite_test_small_prime_gcd_mp p s0 s1) (Ok (choice b)) /\ (b = true <-> has_small_factor (screen_limit p) (mpval p)).
Proof. exact @screen_correct. Qed.
Print Assumptions C38_screen.

(** No prime beyond the limit is ever reported as composite. *)
Theorem C38_primes_pass : forall (c : cfg) p s0 s1, mp_ok p -> mp_ok (NE s0) -> mp_ok (NE s1) ->
  nlimbs p <= zlen s0 -> nlimbs p <= zlen s1 -> gcd_len_ok (LB * nlimbs p) -> prime (mpval p) -> screen_limit p < mpval p ->
  returns (ct_composite_test_small_prime_gcd_mp p s0 s1) (Ok (choice false)).
Proof. exact @screen_prime. Qed.
Print Assumptions C38_primes_pass.

(** The empty integer, zero, is composite. *)
Theorem C38_empty : forall (c : cfg) p s0 s1, mp_len p = 0 -> returns (ct_composite_test_small_prime_gcd_mp p s0 s1) (Ok (choice true)).
Proof. exact @screen_empty. Qed.
Print Assumptions C38_empty.

(** Too short scratch buffers are refused. *)
Theorem C38_errors : forall (c : cfg) p s0 s1, 0 < mp_len p -> zlen s0 < nlimbs p \/ zlen s1 < nlimbs p ->
  returns (ct_composite_test_small_prime_gcd_mp p s0 s1) (Err ScreenInsufficientScratchSpace).
Proof. exact @screen_errors. Qed.
Print Assumptions C38_errors.

(** The prime factors of the hexadecimal constants are the odd primes up to the limits the comments give. *)
Theorem C38_products : forall (c : cfg) i q, (i < 9)%nat -> prime q ->
  ((q | mpval (BE (nth i SMALL_ODD_PRIME_PRODUCTS []))) <-> 2 < q <= nth i [7; 13; 29; 53; 101; 193; 379; 739; 1471] 0).
Proof. exact @products_correct. Qed.
Print Assumptions C38_products.

(** Concrete cases meeting the hypotheses: 31 * 37, having no factor up to 29 but one up to 53, in one and in two 32 bit limbs. *)
Example ex_screen : let c := mkcfg false false true true in
  let p := BE [4; 123] in let q := LE [123; 4; 0; 0; 0; 0] in
  mp_ok p /\ mp_ok q /\ 0 < mp_len p /\ nlimbs p = 1 /\ nlimbs q = 2 /\ gcd_len_ok (LB * nlimbs q) /\ mpval p = 31 * 37 /\ mpval q = 31 * 37 /\
  screen_limit p = 29 /\ screen_limit q = 53 /\
  snd (ct_composite_test_small_prime_gcd_mp p [7] [8]) = Some (Ok (choice false)) /\
  snd (ct_composite_test_small_prime_gcd_mp q [7; 7] [8; 8]) = Some (Ok (choice true)).
Proof.
  cbv zeta. split; [okmp|]. split; [okmp|]. split; [vm_compute; reflexivity|]. split; [vm_compute; reflexivity|]. split; [vm_compute; reflexivity|].
  split; [vm_compute; reflexivity|]. split; [vm_compute; reflexivity|]. split; [vm_compute; reflexivity|]. split; [vm_compute; reflexivity|].
  split; [vm_compute; reflexivity|]. split; vm_compute; reflexivity.
Qed.

(** ** C39: Miller-Rabin *)

(** With the base [a] and 1 given in Montgomery form, the candidate is reported as prime exactly if it is a strong
    probable prime to the base [a]. The guards are needed, see the refutations below: the base must not be of no bytes, the
    radix needs as many limbs as the candidate, the candidate must not be close to the radix ([mg_carry_ok]) nor, unless
    its length is a multiple of the limb's, to the maximum for its length ([mg_room]). *)
Theorem C39_miller_rabin_partial : forall (c : cfg) base p radix s0 s1 a, mp_ok base -> mp_ok p -> mp_ok radix -> mp_ok (NE s0) -> mp_ok (NE s1) ->
  Z.odd (mpval p) = true -> 2 < mpval p -> len_compat base (mp_len p) -> 0 < mp_len base -> len_compat radix (mp_len p) -> nlimbs radix = nlimbs p ->
  nlimbs p <= zlen s0 -> nlimbs p <= zlen s1 -> mpval base = (a * mg_radix p) mod mpval p -> mpval radix = mg_radix p mod mpval p ->
  mg_carry_ok p -> mg_room (NE s0) p -> mg_room (NE s1) p ->
  exists b, returns (ct_prime_test_miller_rabin_mp base p radix s0 s1) (Ok (choice b)) /\ (b = true <-> strong_probable_prime (mpval p) a).
Proof. exact @mr_correct. Qed.
Print Assumptions C39_miller_rabin_partial.

(** Every odd prime is reported as prime, whatever the base not divisible by it. *)
Theorem C39_primes_pass_partial : forall (c : cfg) base p radix s0 s1 a, mp_ok base -> mp_ok p -> mp_ok radix -> mp_ok (NE s0) -> mp_ok (NE s1) ->
  prime (mpval p) -> 2 < mpval p -> ~ (mpval p | a) -> len_compat base (mp_len p) -> 0 < mp_len base -> len_compat radix (mp_len p) -> nlimbs radix = nlimbs p ->
  nlimbs p <= zlen s0 -> nlimbs p <= zlen s1 -> mpval base = (a * mg_radix p) mod mpval p -> mpval radix = mg_radix p mod mpval p ->
  mg_carry_ok p -> mg_room (NE s0) p -> mg_room (NE s1) p ->
  returns (ct_prime_test_miller_rabin_mp base p radix s0 s1) (Ok (choice true)).
Proof. exact @mr_prime. Qed.
Print Assumptions C39_primes_pass_partial.

(** Without the guard on the candidate: for any odd one the test does not panic, and the answer is right unless a carry gets
    lost from one of the products it depends on, those of raising the base to the power of (p - 1) / 2. C32_fine shows when
    that is ruled out. *)
Theorem C39_miller_rabin_any : forall (c : cfg) base p radix s0 s1 a, mp_ok base -> mp_ok p -> mp_ok radix -> mp_ok (NE s0) -> mp_ok (NE s1) ->
  Z.odd (mpval p) = true -> 2 < mpval p -> len_compat base (mp_len p) -> 0 < mp_len base -> len_compat radix (mp_len p) -> nlimbs radix = nlimbs p ->
  nlimbs p <= zlen s0 -> nlimbs p <= zlen s1 -> mpval base = (a * mg_radix p) mod mpval p -> mpval radix = mg_radix p mod mpval p ->
  mg_room (NE s0) p -> mg_room (NE s1) p ->
  exists b, returns (ct_prime_test_miller_rabin_mp base p radix s0 s1) (Ok (choice b)) /\
  (mg_exp_fine p a ((mpval p - 1) / 2) (8 * mp_len p - 1) -> (b = true <-> strong_probable_prime (mpval p) a)).
Proof. exact @mr_any. Qed.
Print Assumptions C39_miller_rabin_any.

Theorem C39_primes_pass_any : forall (c : cfg) base p radix s0 s1 a, mp_ok base -> mp_ok p -> mp_ok radix -> mp_ok (NE s0) -> mp_ok (NE s1) ->
  prime (mpval p) -> 2 < mpval p -> ~ (mpval p | a) -> len_compat base (mp_len p) -> 0 < mp_len base -> len_compat radix (mp_len p) -> nlimbs radix = nlimbs p ->
  nlimbs p <= zlen s0 -> nlimbs p <= zlen s1 -> mpval base = (a * mg_radix p) mod mpval p -> mpval radix = mg_radix p mod mpval p ->
  mg_exp_fine p a ((mpval p - 1) / 2) (8 * mp_len p - 1) -> mg_room (NE s0) p -> mg_room (NE s1) p ->
  returns (ct_prime_test_miller_rabin_mp base p radix s0 s1) (Ok (choice true)).
Proof. exact @mr_prime_any. Qed.
Print Assumptions C39_primes_pass_any.

(** 2^64 - 59, which fails with the base -1 below, meets these hypotheses with the base 3. *)
Example ex_mr_any : let c := mkcfg false false true false in
  let p := NE [2 ^ 32 - 59; 2 ^ 32 - 1] in let radix := NE [59; 0] in let base := NE [177; 0] in
  mp_ok base /\ mp_ok p /\ mp_ok radix /\ mp_ok (NE [0; 0]) /\ Z.odd (mpval p) = true /\ mpval p = 2 ^ 64 - 59 /\ len_compat base (mp_len p) /\
  len_compat radix (mp_len p) /\ nlimbs radix = nlimbs p /\ nlimbs p = 2 /\ mpval base = (3 * mg_radix p) mod mpval p /\ mpval radix = mg_radix p mod mpval p /\
  mg_room (NE [0; 0]) p /\ ~ mg_carry_ok p /\ mg_exp_fine p 3 ((mpval p - 1) / 2) (8 * mp_len p - 1) /\
  snd (ct_prime_test_miller_rabin_mp base p radix [0; 0] [0; 0]) = Some (Ok (choice true)).
Proof.
  cbv zeta. split; [okmp|]. split; [okmp|]. split; [okmp|]. split; [okmp|]. split; [vm_compute; reflexivity|]. split; [vm_compute; reflexivity|].
  split; [left; vm_compute; congruence|]. split; [left; vm_compute; congruence|]. split; [vm_compute; reflexivity|]. split; [vm_compute; reflexivity|].
  split; [vm_compute; reflexivity|]. split; [vm_compute; reflexivity|].
  split; [left; split; [vm_compute; congruence|intros _; vm_compute; reflexivity]|]. split; [intros X; vm_compute in X; congruence|].
  split; [|vm_compute; reflexivity].
  apply (fine_chk_sound _ _ _ _ 63 1); [vm_compute; reflexivity|vm_compute; congruence|vm_compute; reflexivity|vm_compute; reflexivity].
Qed.

(** What exactly the test answers, rightly or wrongly: [mr_outcome]. *)
Theorem C39_miller_rabin_value : forall (c : cfg) base p radix s0 s1 g s d, mp_ok base -> mp_ok p -> mp_ok radix -> mp_ok (NE s0) -> mp_ok (NE s1) ->
  Z.odd (mpval p) = true -> 2 < mpval p -> mpval base < mpval p -> len_compat base (mp_len p) -> 0 < mp_len base -> len_compat radix (mp_len p) -> nlimbs radix = nlimbs p ->
  nlimbs p <= zlen s0 -> nlimbs p <= zlen s1 -> mpval radix = mg_radix p mod mpval p ->
  mg_room (NE s0) p -> mg_room (NE s1) p -> neg_inv p g -> 0 <= s -> mpval p - 1 = 2 ^ s * d -> Z.odd d = true ->
  returns (ct_prime_test_miller_rabin_mp base p radix s0 s1)
    (Ok (choice (mr_outcome p g (mpval base) s (mg_radix p mod mpval p) (Z.to_nat (8 * mp_len p - 1))))).
Proof. exact @mr_value. Qed.
Print Assumptions C39_miller_rabin_value.

(** With limbs of 64 bits, the field prime of secp256k1 is reported as composite for the base -2, that is p - 2, to which it is a
    strong probable prime, whatever the encoding. *)
Theorem C39_secp256k1_refuted : strong_probable_prime secp256k1 (-2) /\
  forall (c : cfg) base p radix s0 s1, limb64 c = true -> mp_ok base -> mp_ok p -> mp_ok radix -> mp_ok (NE s0) -> mp_ok (NE s1) ->
  mp_len p = 32 -> mpval p = secp256k1 -> len_compat base 32 -> 0 < mp_len base -> len_compat radix 32 -> nlimbs radix = 4 -> 4 <= zlen s0 -> 4 <= zlen s1 ->
  mpval base = (-2 * mg_radix p) mod mpval p -> mpval radix = mg_radix p mod mpval p ->
  returns (ct_prime_test_miller_rabin_mp base p radix s0 s1) (Ok (choice false)).
Proof. split; [exact secp256k1_strong|exact @mr_secp256k1]. Qed.
Print Assumptions C39_secp256k1_refuted.

(** Invalid arguments are refused. *)
Theorem C39_errors : forall (c : cfg) base p radix s0 s1, mp_ok base -> mp_ok p -> mp_ok radix ->
  let call := ct_prime_test_miller_rabin_mp base p radix s0 s1 in
  (Z.odd (mpval p) = false -> returns call (Err MrInvalidCandidate)) /\
  (Z.odd (mpval p) = true -> ~ len_compat base (mp_len p) -> returns call (Err MrInconsistentBaseLength)) /\
  (Z.odd (mpval p) = true -> len_compat base (mp_len p) -> mpval base < mpval p -> ~ len_compat radix (mp_len p) -> returns call (Err MrInconsistentMgRadixModPLength)) /\
  (Z.odd (mpval p) = true -> len_compat base (mp_len p) -> mpval base < mpval p -> len_compat radix (mp_len p) -> mpval radix < mpval p ->
   zlen s0 < nlimbs p \/ zlen s1 < nlimbs p -> returns call (Err MrInsufficientScratchSpace)).
Proof. exact @mr_errors. Qed.
Print Assumptions C39_errors.

(** The carry lost in Montgomery multiplication (C30) makes the test report a strong probable prime, 2^64 - 59, as
    composite, with 32 bit limbs and the base -1. *)
Theorem C39_carry_refuted : let c := mkcfg false false true false in
  exists base p radix s0 s1 a, mp_ok base /\ mp_ok p /\ mp_ok radix /\ mp_ok (NE s0) /\ mp_ok (NE s1) /\ mpval p = 2 ^ 64 - 59 /\
  mp_len base = mp_len p /\ mp_len radix = mp_len p /\ zlen s0 = nlimbs p /\ zlen s1 = nlimbs p /\
  mpval base = (a * mg_radix p) mod mpval p /\ mpval radix = mg_radix p mod mpval p /\
  strong_probable_prime (mpval p) a /\ returns (ct_prime_test_miller_rabin_mp base p radix s0 s1) (Ok (choice false)).
Proof.
  cbv zeta. exists (NE [2 ^ 32 - 118; 2 ^ 32 - 1]), (NE [2 ^ 32 - 59; 2 ^ 32 - 1]), (NE [59; 0]), [0; 0], [0; 0], (-1).
  split; [okmp|]. split; [okmp|]. split; [okmp|]. split; [okmp|]. split; [okmp|]. split; [vm_compute; reflexivity|].
  split; [reflexivity|]. split; [reflexivity|]. split; [reflexivity|]. split; [reflexivity|]. split; [vm_compute; reflexivity|]. split; [vm_compute; reflexivity|].
  split.
  - exists 2, (2 ^ 62 - 15). split; [lia|]. split; [vm_compute; reflexivity|]. split; [reflexivity|]. right. exists 0. split; [lia|].
    rewrite Z.pow_0_r, Z.mul_1_l. change (-1) with (- (1)). rewrite Z.pow_opp_odd by (exists (2 ^ 61 - 8); reflexivity). rewrite Z.pow_1_l by lia. vm_compute. reflexivity.
  - vm_compute. reflexivity.
Qed.
Print Assumptions C39_carry_refuted.

(** A candidate whose length is not a multiple of the limb's and which is close to the maximum for its length makes the
    test panic, in every configuration. *)
Definition ones_tail (c : cfg) (t : Z) : mp := BE (zrepeat 255 (LB - 2) ++ [t]).
Theorem C39_unaligned_refuted : forall (c : cfg), exists base p radix s0 s1 a, mp_ok base /\ mp_ok p /\ mp_ok radix /\ mp_ok (NE s0) /\ mp_ok (NE s1) /\
  Z.odd (mpval p) = true /\ 2 < mpval p /\ mp_len base = mp_len p /\ mp_len radix = mp_len p /\ zlen s0 = nlimbs p /\ zlen s1 = nlimbs p /\
  mpval base = (a * mg_radix p) mod mpval p /\ mpval radix = mg_radix p mod mpval p /\ mg_carry_ok p /\
  panics (ct_prime_test_miller_rabin_mp base p radix s0 s1).
Proof.
  intros c. exists (ones_tail c 205), (ones_tail c 253), (BE (zrepeat 0 (LB - 3) ++ [3; 0])), [0], [0].
  exists (if limb64 c then 22517998136852479 else 5242879). destruct c as [l64 am u64 d]. destruct l64, am, u64, d;
  (split; [okmp|]; split; [okmp|]; split; [okmp|]; split; [okmp|]; split; [okmp|]; split; [vm_compute; reflexivity|]; split; [vm_compute; reflexivity|];
   split; [vm_compute; reflexivity|]; split; [vm_compute; reflexivity|]; split; [vm_compute; reflexivity|]; split; [vm_compute; reflexivity|];
   split; [vm_compute; reflexivity|]; split; [vm_compute; reflexivity|]; split; [vm_compute; congruence|]; vm_compute; reflexivity).
Qed.
Print Assumptions C39_unaligned_refuted.

(** A radix of fewer limbs than the candidate, accepted as being of a consistent length, makes the test panic. *)
Theorem C39_short_radix_refuted : forall (c : cfg), exists base p radix s0 s1, mp_ok base /\ mp_ok p /\ mp_ok radix /\ mp_ok (NE s0) /\ mp_ok (NE s1) /\
  Z.odd (mpval p) = true /\ 2 < mpval p /\ mp_len base = mp_len p /\ len_compat radix (mp_len p) /\ zlen s0 = nlimbs p /\ zlen s1 = nlimbs p /\
  mpval base = mg_radix p mod mpval p /\ mpval radix = mg_radix p mod mpval p /\ mg_carry_ok p /\
  panics (ct_prime_test_miller_rabin_mp base p radix s0 s1).
Proof.
  intros c. exists (NE [1; 0]), (NE [1; 1]), (NE [1]), [0; 0], [0; 0]. destruct c as [l64 am u64 d]. destruct l64, am, u64, d;
  (split; [okmp|]; split; [okmp|]; split; [okmp|]; split; [okmp|]; split; [okmp|]; split; [vm_compute; reflexivity|]; split; [vm_compute; reflexivity|];
   split; [vm_compute; reflexivity|]; split; [left; vm_compute; congruence|]; split; [vm_compute; reflexivity|]; split; [vm_compute; reflexivity|];
   split; [vm_compute; reflexivity|]; split; [vm_compute; reflexivity|]; split; [vm_compute; congruence|]; vm_compute; reflexivity).
Qed.
Print Assumptions C39_short_radix_refuted.

(** A base of no bytes, zero, makes the test panic. *)
Theorem C39_empty_base_refuted : forall (c : cfg), exists p radix s0 s1, mp_ok p /\ mp_ok radix /\ mp_ok (NE s0) /\ mp_ok (NE s1) /\
  Z.odd (mpval p) = true /\ 2 < mpval p /\ mp_len radix = mp_len p /\ zlen s0 = nlimbs p /\ zlen s1 = nlimbs p /\
  mpval radix = mg_radix p mod mpval p /\ mg_carry_ok p /\ panics (ct_prime_test_miller_rabin_mp (NE []) p radix s0 s1).
Proof.
  intros c. exists (NE [5]), (NE [1]), [0], [0]. destruct c as [l64 am u64 d]. destruct l64, am, u64, d;
  (split; [okmp|]; split; [okmp|]; split; [okmp|]; split; [okmp|]; split; [vm_compute; reflexivity|]; split; [vm_compute; reflexivity|];
   split; [vm_compute; reflexivity|]; split; [vm_compute; reflexivity|]; split; [vm_compute; reflexivity|];
   split; [vm_compute; reflexivity|]; split; [vm_compute; congruence|]; vm_compute; reflexivity).
Qed.
Print Assumptions C39_empty_base_refuted.

(** The candidate 1 trips a debug assertion. *)
Theorem C39_one_debug_refuted : forall (c : cfg), debug c = true -> exists base p radix s0 s1, mp_ok base /\ mp_ok p /\ mp_ok radix /\ mp_ok (NE s0) /\ mp_ok (NE s1) /\
  mpval p = 1 /\ mp_len base = mp_len p /\ mp_len radix = mp_len p /\ zlen s0 = nlimbs p /\ zlen s1 = nlimbs p /\ mpval base = 0 /\ mpval radix = 0 /\
  panics (ct_prime_test_miller_rabin_mp base p radix s0 s1).
Proof.
  intros c H. exists (NE [0]), (NE [1]), (NE [0]), [0], [0]. revert H. destruct c as [l64 am u64 d]. cbn [debug]. intros ->. destruct l64, am, u64;
  (split; [okmp|]; split; [okmp|]; split; [okmp|]; split; [okmp|]; split; [okmp|]; split; [vm_compute; reflexivity|];
   split; [vm_compute; reflexivity|]; split; [vm_compute; reflexivity|]; split; [vm_compute; reflexivity|]; split; [vm_compute; reflexivity|];
   split; [vm_compute; reflexivity|]; split; [vm_compute; reflexivity|]; vm_compute; reflexivity).
Qed.
Print Assumptions C39_one_debug_refuted.

(** A concrete case meeting the hypotheses: 341 = 11 * 31 in two 8 bit digits, to the base 2 not a strong probable prime
    although a Fermat pseudoprime; 2047 = 23 * 89 is a strong pseudoprime to that base. *)
Example ex_mr : let c := mkcfg false false true true in
  let p := BE [1; 85] in let radix := BE [0; 4] in let base := LE [8; 0] in
  mp_ok base /\ mp_ok p /\ mp_ok radix /\ Z.odd (mpval p) = true /\ mpval p = 341 /\ len_compat base (mp_len p) /\ len_compat radix (mp_len p) /\
  nlimbs radix = nlimbs p /\ mpval base = (2 * mg_radix p) mod mpval p /\ mpval radix = mg_radix p mod mpval p /\ mg_carry_ok p /\ mg_room (NE [7]) p /\
  snd (ct_prime_test_miller_rabin_mp base p radix [7] [8]) = Some (Ok (choice false)).
Proof.
  cbv zeta. split; [okmp|]. split; [okmp|]. split; [okmp|]. split; [vm_compute; reflexivity|]. split; [vm_compute; reflexivity|].
  split; [left; vm_compute; congruence|]. split; [left; vm_compute; congruence|]. split; [vm_compute; reflexivity|]. split; [vm_compute; reflexivity|].
  split; [vm_compute; reflexivity|]. split; [vm_compute; congruence|]. split; [right; vm_compute; congruence|]. vm_compute. reflexivity.
Qed.

Example ex_mr_pseudoprime : let c := mkcfg true false true true in
  let p := NE [2047] in let radix := NE [2 ^ 64 mod 2047] in let base := NE [2 * 2 ^ 64 mod 2047] in
  mp_ok base /\ mp_ok p /\ mp_ok radix /\ Z.odd (mpval p) = true /\ len_compat base (mp_len p) /\ len_compat radix (mp_len p) /\
  nlimbs radix = nlimbs p /\ mpval base = (2 * mg_radix p) mod mpval p /\ mpval radix = mg_radix p mod mpval p /\ mg_carry_ok p /\ mg_room (NE [7]) p /\
  strong_probable_prime (mpval p) 2.
Proof.
  cbv zeta. split; [okmp|]. split; [okmp|]. split; [okmp|]. split; [vm_compute; reflexivity|].
  split; [left; vm_compute; congruence|]. split; [left; vm_compute; congruence|]. split; [vm_compute; reflexivity|]. split; [vm_compute; reflexivity|].
  split; [vm_compute; reflexivity|]. split; [vm_compute; congruence|]. split; [left; split; [vm_compute; congruence|intros _; vm_compute; reflexivity]|].
  exists 1, 1023. split; [lia|]. split; [vm_compute; reflexivity|]. split; [reflexivity|]. left. vm_compute. reflexivity.
Qed.
