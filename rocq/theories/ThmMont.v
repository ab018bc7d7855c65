(** Theorems about Montgomery arithmetic: properties C29 to C32.

    The vocabulary is in SpecMont.v: [mg_radix n] is the Montgomery radix B^(number of limbs of n), [neg_inv n g] says that
    g is -n^-1 modulo the limb base, [mg_reduced n x v] that 0 <= v < n and v * radix = x modulo n, [len_compat b len]
    that a buffer of len bytes accomodates the length of b. [becomes b b' v] (SpecBuf.v) says that b' is a well formed
    buffer of the shape of b that holds v. *)
From Coq Require Import ZArith List Bool Lia.
Require Import Verif.Spec Verif.Monad Verif.ModelLimb Verif.ModelBuf Verif.SpecBuf Verif.ModelMont Verif.SpecMont Verif.SpecMontValue Verif.MontProofs Verif.MontPanic Verif.MontExact Verif.MontNear Verif.MontFine Verif.MontValue.
Import ListNotations.
Open Scope Z_scope.

Ltac okmp := split; [repeat constructor; vm_compute; congruence|vm_compute; reflexivity].

(** ** C29: Montgomery reduction *)

(** The constant needed for Montgomery reductions exists for odd moduli, and only for these. *)
Theorem C29_neg_inv : forall (c : cfg) n, mp_ok n ->
  (Z.odd (mpval n) = true -> yields (ct_montgomery_neg_n0_inv_mod_l_mp n) (fun r => exists g, r = Ok g /\ neg_inv n g)) /\
  (Z.odd (mpval n) = false -> returns (ct_montgomery_neg_n0_inv_mod_l_mp n) (Err MgInvalidModulus)).
Proof. exact neg_inv_correct. Qed.
Print Assumptions C29_neg_inv.

(** The reduced value is unique: [mg_reduced] determines the result. *)
Theorem C29_reduced_unique : forall (c : cfg) n x v w, Z.odd (mpval n) = true -> mg_reduced n x v -> mg_reduced n x w -> v = w.
Proof. exact reduced_unique. Qed.
Print Assumptions C29_reduced_unique.

(** Reduction of any value below n * radix. What is missing: moduli of a single limb, see below. *)
Theorem C29_redc_partial : forall (c : cfg) t n g, mp_ok t -> mp_ok n -> Z.odd (mpval n) = true -> 2 <= nlimbs n ->
  neg_inv n g -> len_compat n (mp_len t) -> len_compat t (2 * mp_len n) -> mpval t < mpval n * mg_radix n ->
  yields (ct_montgomery_redc_mp t n g) (fun '(res, t') => res = Ok tt /\ exists v, becomes t t' v /\ mg_reduced n (mpval t) v).
Proof. exact redc_correct. Qed.
Print Assumptions C29_redc_partial.

(** Unsuitable arguments are refused, the value to reduce remaining untouched. *)
Theorem C29_redc_errors : forall (c : cfg) t n g, mp_ok t -> mp_ok n ->
  (Z.odd (mpval n) = false -> returns (ct_montgomery_redc_mp t n g) (Err MgInvalidModulus, t)) /\
  (Z.odd (mpval n) = true -> ~ len_compat n (mp_len t) -> returns (ct_montgomery_redc_mp t n g) (Err MgInsufficientResultSpace, t)) /\
  (Z.odd (mpval n) = true -> len_compat n (mp_len t) -> ~ len_compat t (2 * mp_len n) ->
     returns (ct_montgomery_redc_mp t n g) (Err MgInputValueOutOfRange, t)).
Proof. exact redc_errors. Qed.
Print Assumptions C29_redc_errors.

(** With a modulus of a single limb the function panics, for every configuration: here reducing 4 modulo B - 3. *)
Theorem C29_redc_single_limb_refuted : forall (c : cfg), exists t n g, mp_ok t /\ mp_ok n /\ Z.odd (mpval n) = true /\
  neg_inv n g /\ len_compat n (mp_len t) /\ len_compat t (2 * mp_len n) /\ mpval t < mpval n * mg_radix n /\
  panics (ct_montgomery_redc_mp t n g).
Proof.
  intros c. exists (NE [4]), (NE [B - 3]), ((2 * B + 1) / 3). destruct c as [l64 am u64 d]. destruct l64, am, u64, d;
  (split; [okmp|]; split; [okmp|]; split; [vm_compute; reflexivity|]; split; [split; [split; [vm_compute; congruence|vm_compute; reflexivity]|vm_compute; reflexivity]|];
   split; [left; vm_compute; congruence|]; split; [left; vm_compute; congruence|]; split; [vm_compute; reflexivity|vm_compute; reflexivity]).
Qed.
Print Assumptions C29_redc_single_limb_refuted.

(** Exactly when: the reduction modulo a single limb works in builds without debug assertions for a modulus in a byte
    buffer of just a limb's length and a value of two limbs. In all other cases that pass the checks it panics. *)
Theorem C29_redc_single_limb : forall (c : cfg) t n g, mp_ok t -> mp_ok n -> Z.odd (mpval n) = true -> nlimbs n = 1 -> neg_inv n g ->
  len_compat n (mp_len t) -> len_compat t (2 * mp_len n) -> mpval t < mpval n * mg_radix n ->
  let works := debug c = false /\ 2 <= nlimbs t /\ kind_of n <> KNE /\ mp_len n = LB in
  (works -> yields (ct_montgomery_redc_mp t n g) (fun '(res, t') => res = Ok tt /\ exists v, becomes t t' v /\ mg_reduced n (mpval t) v)) /\
  (~ works -> panics (ct_montgomery_redc_mp t n g)).
Proof. exact redc_single. Qed.
Print Assumptions C29_redc_single_limb.

(** Both cases exist: reducing 2^32 + 4 modulo 2^32 - 3. *)
Example ex_redc_single : let c := mkcfg false false true false in
  let t := LE [4; 0; 0; 0; 1] in let n := BE [255; 255; 255; 253] in let n' := NE [4294967293] in let g := 2863311531 in
  mp_ok t /\ mp_ok n /\ mp_ok n' /\ Z.odd (mpval n) = true /\ nlimbs n = 1 /\ nlimbs n' = 1 /\ neg_inv n g /\ neg_inv n' g /\
  len_compat n (mp_len t) /\ len_compat t (2 * mp_len n) /\ mpval t < mpval n * mg_radix n /\ 2 <= nlimbs t /\ mp_len n = LB /\ mpval n' = mpval n /\
  returns (ct_montgomery_redc_mp t n g) (Ok tt, LE [171; 170; 170; 170; 0]) /\ mg_reduced n (mpval t) 2863311531 /\
  panics (ct_montgomery_redc_mp t n' g).
Proof.
  cbv zeta. split; [okmp|]. split; [okmp|]. split; [okmp|]. split; [vm_compute; reflexivity|]. split; [vm_compute; reflexivity|]. split; [vm_compute; reflexivity|].
  split; [split; [split; [vm_compute; congruence|vm_compute; reflexivity]|vm_compute; reflexivity]|].
  split; [split; [split; [vm_compute; congruence|vm_compute; reflexivity]|vm_compute; reflexivity]|].
  split; [left; vm_compute; congruence|]. split; [left; vm_compute; congruence|]. split; [vm_compute; reflexivity|]. split; [vm_compute; congruence|].
  split; [vm_compute; reflexivity|]. split; [vm_compute; reflexivity|]. split; [vm_compute; reflexivity|]. split; [|vm_compute; reflexivity].
  split; [split; [vm_compute; congruence|vm_compute; reflexivity]|vm_compute; reflexivity].
Qed.

(** A concrete case meeting the hypotheses: reducing 2^100 + 9 modulo 2^63 + 3 with 32 bit limbs. *)
Example ex_redc : let c := mkcfg false false true true in
  let t := BE [0x10; 0; 0; 0; 0; 0; 0; 0; 0; 0; 0; 0; 9] in let n := NE [3; 0x80000000] in let g := 0x55555555 in
  mp_ok t /\ mp_ok n /\ Z.odd (mpval n) = true /\ 2 <= nlimbs n /\ neg_inv n g /\ len_compat n (mp_len t) /\ len_compat t (2 * mp_len n) /\
  mpval t < mpval n * mg_radix n /\
  exists t', snd (ct_montgomery_redc_mp t n g) = Some (Ok tt, t') /\ mg_reduced n (mpval t) (mpval t').
Proof.
  cbv zeta. split; [okmp|]. split; [okmp|]. split; [vm_compute; reflexivity|]. split; [vm_compute; congruence|].
  split; [split; [split; [vm_compute; congruence|vm_compute; reflexivity]|vm_compute; reflexivity]|].
  split; [left; vm_compute; congruence|]. split; [left; vm_compute; congruence|]. split; [vm_compute; reflexivity|].
  eexists. split; [vm_compute; reflexivity|]. split; [split; [vm_compute; congruence|vm_compute; reflexivity]|vm_compute; reflexivity].
Qed.

(** ** C30: Montgomery multiplication *)

(** The product of two residues divided by the radix. What is missing: the condition on B * op1 excludes moduli very close
    to the radix, for which a carry can get lost; the last condition excludes result buffers too tight for the unreduced
    product. Both conditions are needed, see the refutations below. *)
Theorem C30_mul_partial : forall (c : cfg) r op0 op1 n g, mp_ok r -> mp_ok op0 -> mp_ok op1 -> mp_ok n ->
  Z.odd (mpval n) = true -> neg_inv n g -> len_compat n (mp_len r) -> len_compat op0 (mp_len n) -> len_compat op1 (mp_len n) ->
  mpval op0 < mpval n -> mpval op1 < mpval n -> 0 < mp_len op1 ->
  B * mpval op1 + mpval n <= B * mg_radix n ->
  (same_bytes r n \/ mpval op0 * mpval op1 + mg_radix n * mpval n <= mg_radix n * 256 ^ Z.min (mp_len r) (mp_len n)) ->
  yields (ct_montgomery_mul_mod_mp_mp r op0 op1 n g) (fun '(res, r') =>
    res = Ok tt /\ exists v, becomes r r' v /\ mg_reduced n (mpval op0 * mpval op1) v).
Proof. exact mul_correct. Qed.
Print Assumptions C30_mul_partial.

Theorem C30_mul_errors : forall (c : cfg) r op0 op1 n g, mp_ok r -> mp_ok op0 -> mp_ok op1 -> mp_ok n ->
  (Z.odd (mpval n) = false -> returns (ct_montgomery_mul_mod_mp_mp r op0 op1 n g) (Err MgInvalidModulus, r)) /\
  (Z.odd (mpval n) = true -> ~ len_compat n (mp_len r) -> returns (ct_montgomery_mul_mod_mp_mp r op0 op1 n g) (Err MgInsufficientResultSpace, r)) /\
  (Z.odd (mpval n) = true -> len_compat n (mp_len r) -> ~ (len_compat op0 (mp_len n) /\ len_compat op1 (mp_len n)) ->
     returns (ct_montgomery_mul_mod_mp_mp r op0 op1 n g) (Err MgInconsistentOperandLengths, r)).
Proof. exact mul_errors. Qed.
Print Assumptions C30_mul_errors.

(** Exactly when it works: the product is right if no carry gets lost and the unreduced product fits. It is always wrong if a
    carry gets lost, and if the unreduced product does not fit, the function panics (debug assertions) or returns a wrong
    product (none). *)
Theorem C30_mul_exact : forall (c : cfg) r op0 op1 n g, mp_ok r -> mp_ok op0 -> mp_ok op1 -> mp_ok n ->
  Z.odd (mpval n) = true -> neg_inv n g -> len_compat n (mp_len r) -> len_compat op0 (mp_len n) -> len_compat op1 (mp_len n) ->
  mpval op0 < mpval n -> mpval op1 < mpval n -> (0 < mp_len op1 \/ mp_len op0 = 0 \/ (debug c = false /\ kind_of op1 <> KNE)) ->
  let right := fun '(res, r') => res = Ok tt /\ exists v, becomes r r' v /\ mg_reduced n (mpval op0 * mpval op1) v in
  let wrong := fun '(res, r') => res = Ok tt /\ exists v, becomes r r' v /\ ~ mg_reduced n (mpval op0 * mpval op1) v in
  let call := ct_montgomery_mul_mod_mp_mp r op0 op1 n g in
  (mg_no_carry_lost op0 op1 n -> mg_sum_fits r op0 op1 n -> yields call right) /\
  (~ mg_no_carry_lost op0 op1 n -> yields call wrong) /\
  (~ mg_sum_fits r op0 op1 n -> if debug c then panics call else yields call wrong).
Proof. exact mul_exact. Qed.
Print Assumptions C30_mul_exact.

(** And what exactly comes out, wrong or not: [mg_product] (SpecMontValue.v) drops in every round what exceeds B times the radix,
    and the result is right if and only if that never happens. *)
Theorem C30_mul_value : forall (c : cfg) r op0 op1 n g, mp_ok r -> mp_ok op0 -> mp_ok op1 -> mp_ok n ->
  Z.odd (mpval n) = true -> neg_inv n g -> len_compat n (mp_len r) -> len_compat op0 (mp_len n) -> len_compat op1 (mp_len n) ->
  mpval op0 < mpval n -> mpval op1 < mpval n -> 0 < mp_len op1 -> mg_room r n ->
  yields (ct_montgomery_mul_mod_mp_mp r op0 op1 n g) (fun '(res, r') => res = Ok tt /\ becomes r r' (mg_product n g (mpval op0) (mpval op1)) /\
    (mg_reduced n (mpval op0 * mpval op1) (mg_product n g (mpval op0) (mpval op1)) <-> mg_no_carry_lost op0 op1 n)).
Proof. exact mul_value. Qed.
Print Assumptions C30_mul_value.

(** The square of n - 1 modulo n = 2^64 - 59 with limbs of 32 bits: the hypotheses are met, a carry gets lost and the value is off
    by 59. *)
Example ex_mul_value : let c := mkcfg false false true true in let n := NE [2 ^ 32 - 59; 2 ^ 32 - 1] in let x := NE [2 ^ 32 - 60; 2 ^ 32 - 1] in
  mp_ok n /\ mp_ok x /\ Z.odd (mpval n) = true /\ neg_inv n 2693454067 /\ mpval x < mpval n /\ len_compat x (mp_len n) /\ mg_room n n /\
  mg_product n 2693454067 (mpval x) (mpval x) = 14694863923124557961 /\ mg_reduced n (mpval x * mpval x) 14694863923124558020.
Proof.
  cbv zeta. split; [okmp|]. split; [okmp|]. split; [vm_compute; reflexivity|]. split; [vm_compute; repeat split; congruence|]. split; [vm_compute; reflexivity|].
  split; [left; vm_compute; congruence|]. split; [left; split; [vm_compute; congruence|intros _; vm_compute; reflexivity]|].
  split; [vm_compute; reflexivity|vm_compute; repeat split; congruence].
Qed.

(** The remaining case, an empty second factor: the function panics. *)
Theorem C30_mul_empty : forall (c : cfg) r op0 op1 n g, mp_ok r -> mp_ok op0 -> mp_ok op1 -> mp_ok n ->
  Z.odd (mpval n) = true -> len_compat n (mp_len r) -> len_compat op0 (mp_len n) ->
  0 < mp_len op0 -> mp_len op1 = 0 -> (debug c = true \/ kind_of op1 = KNE) ->
  panics (ct_montgomery_mul_mod_mp_mp r op0 op1 n g).
Proof. exact mul_empty. Qed.
Print Assumptions C30_mul_empty.

(** All cases exist, with 32 bit limbs: factors modulo 2^64 - 3 which do and which do not lose a carry, and products modulo
    2^56 - 3 which do and do not fit. *)
Example ex_mul_exact : let c := mkcfg false false true false in
  let n := NE [4294967293; 4294967295] in let op0 := NE [4294967292; 4294967295] in let op1 := NE [3221225475; 4294967295] in let op1' := NE [7; 4294967294] in
  let n2 := BE [255; 255; 255; 255; 255; 255; 253] in let a2 := BE [255; 255; 255; 255; 255; 255; 252] in let b2 := BE [255; 255; 255; 255; 255; 254; 247] in
  mpval op0 < mpval n /\ mpval op1 < mpval n /\ mpval op1' < mpval n /\ ~ mg_no_carry_lost op0 op1 n /\ mg_no_carry_lost op0 op1' n /\
  mg_no_carry_lost a2 b2 n2 /\ mg_sum_fits (BE [0; 0; 0; 0; 0; 0; 0]) a2 b2 n2 /\ ~ mg_sum_fits (NE [0; 0]) a2 b2 n2.
Proof.
  cbv zeta. split; [vm_compute; reflexivity|]. split; [vm_compute; reflexivity|]. split; [vm_compute; reflexivity|].
  split. { intros H. specialize (H 1 4294967292 36893488111985623041). lapply H; [clear H; intros H|split; vm_compute; congruence]. lapply H; [clear H; intros H|split; vm_compute; congruence].
    lapply H; [clear H; intros H|vm_compute; reflexivity]. vm_compute in H. discriminate H. }
  split; [apply no_carry_lost; [okmp|okmp|vm_compute; reflexivity|vm_compute; congruence]|].
  split; [apply no_carry_lost; [okmp|okmp|vm_compute; reflexivity|vm_compute; congruence]|].
  split; [left; split; [vm_compute; congruence|discriminate]|].
  intros [[_ H]|H]; [specialize (H eq_refl); vm_compute in H; discriminate H|].
  specialize (H 18422724875696909324 72245244022401704). lapply H; [clear H; intros H|split; vm_compute; congruence].
  lapply H; [clear H; intros H|vm_compute; reflexivity]. vm_compute in H. discriminate H.
Qed.

(** A carry gets lost: for n = B^2 - 3, op0 = n - 1 and a suitable op1 the result is a wrong residue, for every
    configuration. All buffers are of the very same format and length. *)
Theorem C30_mul_carry_refuted : forall (c : cfg), exists r op0 op1 n g r', mp_ok r /\ mp_ok op0 /\ mp_ok op1 /\ mp_ok n /\
  Z.odd (mpval n) = true /\ neg_inv n g /\ mp_len r = mp_len n /\ mp_len op0 = mp_len n /\ mp_len op1 = mp_len n /\
  kind_of r = KNE /\ kind_of op0 = KNE /\ kind_of op1 = KNE /\ kind_of n = KNE /\
  mpval op0 < mpval n /\ mpval op1 < mpval n /\
  returns (ct_montgomery_mul_mod_mp_mp r op0 op1 n g) (Ok tt, r') /\ mpval r' < mpval n /\ ~ mg_reduced n (mpval op0 * mpval op1) (mpval r').
Proof.
  intros c. exists (NE [0; 0]), (NE [B - 4; B - 1]), (NE [B - B / 4 + 3; B - 1]), (NE [B - 3; B - 1]), ((2 * B + 1) / 3).
  destruct c as [l64 am u64 d]. destruct l64, am, u64, d;
  (eexists; split; [okmp|]; split; [okmp|]; split; [okmp|]; split; [okmp|]; split; [vm_compute; reflexivity|];
   split; [split; [split; [vm_compute; congruence|vm_compute; reflexivity]|vm_compute; reflexivity]|];
   split; [reflexivity|]; split; [reflexivity|]; split; [reflexivity|]; split; [reflexivity|]; split; [reflexivity|]; split; [reflexivity|]; split; [reflexivity|];
   split; [vm_compute; reflexivity|]; split; [vm_compute; reflexivity|];
   split; [vm_compute; reflexivity|]; split; [vm_compute; reflexivity|]; intros [_ E]; vm_compute in E; discriminate E).
Qed.
Print Assumptions C30_mul_carry_refuted.

(** The guard [mg_carry_ok], (B + 1) n <= B * radix, of [C30_mul_partial] is all but necessary: for any modulus that exceeds it,
    if only by a small margin, there are two residues x and y such that every multiplication of the two gives a wrong result,
    whatever the buffers they are held in. The margin is 2 n / B^i + B^(i + 1) for any i the caller of the theorem
    chooses, i.e. a fraction of about B^(-k/2) of a modulus of k limbs for the best one. *)
Theorem C30_mul_near_radix_refuted : forall (c : cfg) n i, mp_ok n -> Z.odd (mpval n) = true -> 1 <= i ->
  B ^ i * B * mg_radix n + B ^ i * B ^ i * B <= (B ^ i * (B + 1) - 2) * mpval n ->
  exists x y, 0 <= x < mpval n /\ 0 <= y < mpval n /\
  forall r op0 op1 g, mp_ok r -> mp_ok op0 -> mp_ok op1 -> neg_inv n g -> len_compat n (mp_len r) -> len_compat op0 (mp_len n) -> len_compat op1 (mp_len n) ->
  mpval op0 = x -> mpval op1 = y ->
  yields (ct_montgomery_mul_mod_mp_mp r op0 op1 n g) (fun '(res, r') => res = Ok tt /\ exists v, becomes r r' v /\ ~ mg_reduced n (x * y) v).
Proof. exact mul_near_radix. Qed.
Print Assumptions C30_mul_near_radix_refuted.

(** In particular it fails for every odd modulus of at least three limbs in which all bits of the most significant limb and the
    next one are set. That is true of the primes of all Diffie-Hellman groups of RFC 2409, RFC 3526 and RFC 7919, of which two are taken here. *)
Theorem C30_mul_top_ones_refuted : forall (c : cfg) n, mp_ok n -> Z.odd (mpval n) = true -> 3 <= nlimbs n -> mg_radix n - mg_radix n / (2 * B) <= mpval n ->
  exists x y, 0 <= x < mpval n /\ 0 <= y < mpval n /\
  forall r op0 op1 g, mp_ok r -> mp_ok op0 -> mp_ok op1 -> neg_inv n g -> len_compat n (mp_len r) -> len_compat op0 (mp_len n) -> len_compat op1 (mp_len n) ->
  mpval op0 = x -> mpval op1 = y ->
  yields (ct_montgomery_mul_mod_mp_mp r op0 op1 n g) (fun '(res, r') => res = Ok tt /\ exists v, becomes r r' v /\ ~ mg_reduced n (x * y) v).
Proof. exact mul_top_ones. Qed.
Print Assumptions C30_mul_top_ones_refuted.
Theorem C30_mul_modp_refuted : forall (c : cfg) n, mp_ok n -> (mp_len n = 128 /\ mpval n = modp1024) \/ (mp_len n = 256 /\ mpval n = modp2048) ->
  exists x y, 0 <= x < mpval n /\ 0 <= y < mpval n /\
  forall r op0 op1 g, mp_ok r -> mp_ok op0 -> mp_ok op1 -> neg_inv n g -> len_compat n (mp_len r) -> len_compat op0 (mp_len n) -> len_compat op1 (mp_len n) ->
  mpval op0 = x -> mpval op1 = y ->
  yields (ct_montgomery_mul_mod_mp_mp r op0 op1 n g) (fun '(res, r') => res = Ok tt /\ exists v, becomes r r' v /\ ~ mg_reduced n (x * y) v).
Proof. exact mul_modp. Qed.
Print Assumptions C30_mul_modp_refuted.
Example ex_modp : let c := mkcfg true false true false in let n := BE [255; 255; 255; 255; 255; 255; 255; 255; 201; 15; 218; 162; 33; 104; 194; 52; 196; 198; 98; 139; 128; 220; 28; 209; 41; 2; 78; 8; 138; 103; 204; 116; 2; 11; 190; 166; 59; 19; 155; 34; 81; 74; 8; 121; 142; 52; 4; 221; 239; 149; 25; 179; 205; 58; 67; 27; 48; 43; 10; 109; 242; 95; 20; 55; 79; 225; 53; 109; 109; 81; 194; 69; 228; 133; 181; 118; 98; 94; 126; 198; 244; 76; 66; 233; 166; 55; 237; 107; 11; 255; 92; 182; 244; 6; 183; 237; 238; 56; 107; 251; 90; 137; 159; 165; 174; 159; 36; 17; 124; 75; 31; 230; 73; 40; 102; 81; 236; 230; 83; 129; 255; 255; 255; 255; 255; 255; 255; 255] in
  mp_ok n /\ mp_len n = 128 /\ mpval n = modp1024 /\ Z.odd (mpval n) = true /\ 3 <= nlimbs n /\ mg_radix n - mg_radix n / (2 * B) <= mpval n.
Proof.
  cbv zeta. split; [okmp|]. split; [reflexivity|]. split; [vm_compute; reflexivity|]. split; [vm_compute; reflexivity|]. split; vm_compute; congruence.
Qed.

(** Also affected are the primes of NIST P-384 and secp256k1, with limbs of either width, and the one of
    NIST P-256 with limbs of 32 bits. *)
Theorem C30_mul_curves_refuted : forall (c : cfg) n, mp_ok n ->
  (mp_len n = 48 /\ mpval n = p384) \/ (mp_len n = 32 /\ mpval n = secp256k1) \/ (limb64 c = false /\ mp_len n = 32 /\ mpval n = p256) ->
  exists x y, 0 <= x < mpval n /\ 0 <= y < mpval n /\
  forall r op0 op1 g, mp_ok r -> mp_ok op0 -> mp_ok op1 -> neg_inv n g -> len_compat n (mp_len r) -> len_compat op0 (mp_len n) -> len_compat op1 (mp_len n) ->
  mpval op0 = x -> mpval op1 = y ->
  yields (ct_montgomery_mul_mod_mp_mp r op0 op1 n g) (fun '(res, r') => res = Ok tt /\ exists v, becomes r r' v /\ ~ mg_reduced n (x * y) v).
Proof. exact mul_curves. Qed.
Print Assumptions C30_mul_curves_refuted.

(** The prime of NIST P-256 with limbs of 64 bits and the one of Curve25519 are not. *)
Theorem C30_carry_ok_curves : forall (c : cfg) n, mp_ok n -> (limb64 c = true /\ mpval n = p256) \/ mpval n = p25519 -> mg_carry_ok n.
Proof. exact carry_ok_curves. Qed.
Print Assumptions C30_carry_ok_curves.

(** Such buffers exist, as do the residues' ones: with 32 bit limbs, the prime of P-256 and the residues of the proof for i = 6. *)
Example ex_near_radix : let c := mkcfg false false true false in
  let n := NE [4294967295; 4294967295; 4294967295; 0; 0; 0; 1; 4294967295] in
  let op0 := NE [4294967295; 4294967295; 4294967295; 4294967295; 4294967295; 4294967295; 4294967295; 0] in
  mp_ok n /\ mp_ok op0 /\ mp_len n = 32 /\ mpval n = p256 /\ neg_inv n 1 /\ len_compat n (mp_len n) /\ len_compat op0 (mp_len n) /\ mpval op0 = B ^ 6 * B - 1 /\
  B ^ 4 * B * mg_radix n + B ^ 4 * B ^ 4 * B <= (B ^ 4 * (B + 1) - 2) * mpval n /\
  (let k := NE [4294966319; 4294967294; 4294967295; 4294967295; 4294967295; 4294967295; 4294967295; 4294967295] in mp_ok k /\ mp_len k = 32 /\ mpval k = secp256k1).
Proof.
  cbv zeta. split; [okmp|]. split; [okmp|]. split; [reflexivity|]. split; [vm_compute; reflexivity|]. split; [split; [split; vm_compute; congruence|vm_compute; reflexivity]|].
  split; [left; vm_compute; congruence|]. split; [left; vm_compute; congruence|]. split; [vm_compute; reflexivity|]. split; [vm_compute; congruence|].
  split; [okmp|]. split; [reflexivity|vm_compute; reflexivity].
Qed.

(** A result buffer of native limbs together with a modulus whose length is not a multiple of the limb's: the unreduced
    product may exceed the modulus' bytes. With debug assertions the function panics, without it returns a value that is not
    even below the modulus. *)
Definition bytes_for (c : cfg) (tail : list Z) : mp := BE (zrepeat 255 (2 * LB - 1 - zlen tail) ++ tail).

Theorem C30_mul_unaligned_modulus_debug_refuted : forall (c : cfg), debug c = true -> exists r op0 op1 n g, mp_ok r /\ mp_ok op0 /\ mp_ok op1 /\ mp_ok n /\
  Z.odd (mpval n) = true /\ neg_inv n g /\ len_compat n (mp_len r) /\ mp_len op0 = mp_len n /\ mp_len op1 = mp_len n /\
  mpval op0 < mpval n /\ mpval op1 < mpval n /\ mg_carry_ok n /\
  panics (ct_montgomery_mul_mod_mp_mp r op0 op1 n g).
Proof.
  intros c H. exists (NE [0; 0]), (bytes_for c [252]), (bytes_for c [254; 247]), (bytes_for c [253]), ((2 * B + 1) / 3).
  revert H. destruct c as [l64 am u64 d]. cbn [debug]. intros ->. destruct l64, am, u64;
  (split; [okmp|]; split; [okmp|]; split; [okmp|]; split; [okmp|]; split; [vm_compute; reflexivity|];
   split; [split; [split; [vm_compute; congruence|vm_compute; reflexivity]|vm_compute; reflexivity]|];
   split; [left; vm_compute; congruence|]; split; [reflexivity|]; split; [reflexivity|];
   split; [vm_compute; reflexivity|]; split; [vm_compute; reflexivity|]; split; [vm_compute; congruence|]; vm_compute; reflexivity).
Qed.
Print Assumptions C30_mul_unaligned_modulus_debug_refuted.

Theorem C30_mul_unaligned_modulus_release_refuted : forall (c : cfg), debug c = false -> exists r op0 op1 n g r', mp_ok r /\ mp_ok op0 /\ mp_ok op1 /\ mp_ok n /\
  Z.odd (mpval n) = true /\ neg_inv n g /\ len_compat n (mp_len r) /\ mp_len op0 = mp_len n /\ mp_len op1 = mp_len n /\
  mpval op0 < mpval n /\ mpval op1 < mpval n /\ mg_carry_ok n /\
  returns (ct_montgomery_mul_mod_mp_mp r op0 op1 n g) (Ok tt, r') /\ mpval n <= mpval r'.
Proof.
  intros c H. exists (NE [0; 0]), (bytes_for c [252]), (bytes_for c [254; 247]), (bytes_for c [253]), ((2 * B + 1) / 3).
  revert H. destruct c as [l64 am u64 d]. cbn [debug]. intros ->. destruct l64, am, u64;
  (eexists; split; [okmp|]; split; [okmp|]; split; [okmp|]; split; [okmp|]; split; [vm_compute; reflexivity|];
   split; [split; [split; [vm_compute; congruence|vm_compute; reflexivity]|vm_compute; reflexivity]|];
   split; [left; vm_compute; congruence|]; split; [reflexivity|]; split; [reflexivity|];
   split; [vm_compute; reflexivity|]; split; [vm_compute; reflexivity|]; split; [vm_compute; congruence|];
   split; [vm_compute; reflexivity|]; vm_compute; congruence).
Qed.
Print Assumptions C30_mul_unaligned_modulus_release_refuted.

(** A result buffer shorter than one of native limbs holding the modulus, but long enough for the modulus' value. *)
Theorem C30_mul_short_result_debug_refuted : forall (c : cfg), debug c = true -> exists r op0 op1 n g, mp_ok r /\ mp_ok op0 /\ mp_ok op1 /\ mp_ok n /\
  Z.odd (mpval n) = true /\ neg_inv n g /\ len_compat n (mp_len r) /\ mp_len op0 = mp_len n /\ mp_len op1 = mp_len n /\
  mpval op0 < mpval n /\ mpval op1 < mpval n /\ mg_carry_ok n /\
  panics (ct_montgomery_mul_mod_mp_mp r op0 op1 n g).
Proof.
  intros c H. exists (BE (zrepeat 0 (2 * LB - 1))), (NE [B - 4; B / 256 - 1]), (NE [B - 265; B / 256 - 1]), (NE [B - 3; B / 256 - 1]), ((2 * B + 1) / 3).
  revert H. destruct c as [l64 am u64 d]. cbn [debug]. intros ->. destruct l64, am, u64;
  (split; [okmp|]; split; [okmp|]; split; [okmp|]; split; [okmp|]; split; [vm_compute; reflexivity|];
   split; [split; [split; [vm_compute; congruence|vm_compute; reflexivity]|vm_compute; reflexivity]|];
   split; [right; split; [reflexivity|split; vm_compute; reflexivity]|]; split; [reflexivity|]; split; [reflexivity|];
   split; [vm_compute; reflexivity|]; split; [vm_compute; reflexivity|]; split; [vm_compute; congruence|]; vm_compute; reflexivity).
Qed.
Print Assumptions C30_mul_short_result_debug_refuted.

Theorem C30_mul_short_result_release_refuted : forall (c : cfg), debug c = false -> exists r op0 op1 n g r', mp_ok r /\ mp_ok op0 /\ mp_ok op1 /\ mp_ok n /\
  Z.odd (mpval n) = true /\ neg_inv n g /\ len_compat n (mp_len r) /\ mp_len op0 = mp_len n /\ mp_len op1 = mp_len n /\
  mpval op0 < mpval n /\ mpval op1 < mpval n /\ mg_carry_ok n /\
  returns (ct_montgomery_mul_mod_mp_mp r op0 op1 n g) (Ok tt, r') /\ ~ mg_reduced n (mpval op0 * mpval op1) (mpval r').
Proof.
  intros c H. exists (BE (zrepeat 0 (2 * LB - 1))), (NE [B - 4; B / 256 - 1]), (NE [B - 265; B / 256 - 1]), (NE [B - 3; B / 256 - 1]), ((2 * B + 1) / 3).
  revert H. destruct c as [l64 am u64 d]. cbn [debug]. intros ->. destruct l64, am, u64;
  (eexists; split; [okmp|]; split; [okmp|]; split; [okmp|]; split; [okmp|]; split; [vm_compute; reflexivity|];
   split; [split; [split; [vm_compute; congruence|vm_compute; reflexivity]|vm_compute; reflexivity]|];
   split; [right; split; [reflexivity|split; vm_compute; reflexivity]|]; split; [reflexivity|]; split; [reflexivity|];
   split; [vm_compute; reflexivity|]; split; [vm_compute; reflexivity|]; split; [vm_compute; congruence|];
   split; [vm_compute; reflexivity|]; intros [_ E]; vm_compute in E; discriminate E).
Qed.
Print Assumptions C30_mul_short_result_release_refuted.

(** An empty second operand, holding the value 0, makes the function panic. *)
Theorem C30_mul_empty_refuted : forall (c : cfg), exists r op0 op1 n g, mp_ok r /\ mp_ok op0 /\ mp_ok op1 /\ mp_ok n /\
  Z.odd (mpval n) = true /\ neg_inv n g /\ mp_len r = mp_len n /\ mp_len op0 = mp_len n /\ mp_len op1 = 0 /\ mpval op0 < mpval n /\ mg_carry_ok n /\
  panics (ct_montgomery_mul_mod_mp_mp r op0 op1 n g).
Proof.
  intros c. exists (NE [0; 0]), (NE [1; 1]), (NE []), (NE [B - 3; 1]), ((2 * B + 1) / 3).
  destruct c as [l64 am u64 d]. destruct l64, am, u64, d;
  (split; [okmp|]; split; [okmp|]; split; [okmp|]; split; [okmp|]; split; [vm_compute; reflexivity|];
   split; [split; [split; [vm_compute; congruence|vm_compute; reflexivity]|vm_compute; reflexivity]|];
   split; [reflexivity|]; split; [reflexivity|]; split; [reflexivity|];
   split; [vm_compute; reflexivity|]; split; [vm_compute; congruence|]; vm_compute; reflexivity).
Qed.
Print Assumptions C30_mul_empty_refuted.

(** A concrete case meeting the hypotheses, with buffers of all three formats. *)
Example ex_mul : let c := mkcfg false false true true in
  let n := BE [0x80; 0; 0; 0; 0; 0; 0; 3] in let op0 := LE [1; 2; 3; 4; 5; 6; 7; 8] in let op1 := NE [0xdeadbeef; 0x7fffffff] in let r := NE [7; 7; 7] in
  let g := 0x55555555 in
  mp_ok r /\ mp_ok op0 /\ mp_ok op1 /\ mp_ok n /\ Z.odd (mpval n) = true /\ neg_inv n g /\ len_compat n (mp_len r) /\ len_compat op0 (mp_len n) /\
  len_compat op1 (mp_len n) /\ mpval op0 < mpval n /\ mpval op1 < mpval n /\ 0 < mp_len op1 /\ B * mpval op1 + mpval n <= B * mg_radix n /\
  same_bytes r n /\
  exists r', snd (ct_montgomery_mul_mod_mp_mp r op0 op1 n g) = Some (Ok tt, r') /\ mg_reduced n (mpval op0 * mpval op1) (mpval r').
Proof.
  cbv zeta. split; [okmp|]. split; [okmp|]. split; [okmp|]. split; [okmp|]. split; [vm_compute; reflexivity|].
  split; [split; [split; [vm_compute; congruence|vm_compute; reflexivity]|vm_compute; reflexivity]|].
  split; [left; vm_compute; congruence|]. split; [left; vm_compute; congruence|]. split; [left; vm_compute; congruence|].
  split; [vm_compute; reflexivity|]. split; [vm_compute; reflexivity|]. split; [vm_compute; reflexivity|]. split; [vm_compute; congruence|].
  split; [split; [vm_compute; congruence|intros _; vm_compute; reflexivity]|].
  eexists. split; [vm_compute; reflexivity|]. split; [split; [vm_compute; congruence|vm_compute; reflexivity]|vm_compute; reflexivity].
Qed.

(** ** C31: conversion to Montgomery form *)

(** By division. Any value that fits the buffer may be converted. *)
Theorem C31_direct : forall (c : cfg) t n, mp_ok t -> mp_ok n ->
  (Z.odd (mpval n) = true -> len_compat n (mp_len t) ->
     yields (ct_to_montgomery_form_direct_mp t n) (fun '(res, t') => res = Ok tt /\ becomes t t' ((mpval t * mg_radix n) mod mpval n))) /\
  (Z.odd (mpval n) = false -> returns (ct_to_montgomery_form_direct_mp t n) (Err MgInvalidModulus, t)) /\
  (Z.odd (mpval n) = true -> ~ len_compat n (mp_len t) -> returns (ct_to_montgomery_form_direct_mp t n) (Err MgInsufficientResultSpace, t)).
Proof. exact direct_correct. Qed.
Print Assumptions C31_direct.

(** The square of the radix modulo n. *)
Theorem C31_radix2 : forall (c : cfg) r n, mp_ok r -> mp_ok n ->
  (Z.odd (mpval n) = true -> len_compat n (mp_len r) -> 16 * (mp_len n + LB) + 8 < 2 ^ UW ->
     yields (ct_montgomery_radix2_mod_n_mp r n) (fun '(res, r') => res = Ok tt /\ becomes r r' ((mg_radix n * mg_radix n) mod mpval n))) /\
  (Z.odd (mpval n) = false -> returns (ct_montgomery_radix2_mod_n_mp r n) (Err MgInvalidModulus, r)) /\
  (Z.odd (mpval n) = true -> ~ len_compat n (mp_len r) -> returns (ct_montgomery_radix2_mod_n_mp r n) (Err MgInsufficientResultSpace, r)).
Proof. exact radix2_correct. Qed.
Print Assumptions C31_radix2.

(** By multiplication with that square. The missing cases are those of C30. *)
Theorem C31_to_form_partial : forall (c : cfg) r t n g r2, mp_ok r -> mp_ok t -> mp_ok n -> mp_ok r2 -> Z.odd (mpval n) = true -> neg_inv n g ->
  len_compat n (mp_len r) -> len_compat t (mp_len n) -> mpval t < mpval n -> len_compat r2 (mp_len n) -> 0 < mp_len r2 ->
  mpval r2 = (mg_radix n * mg_radix n) mod mpval n -> mg_carry_ok n -> mg_room r n ->
  yields (ct_to_montgomery_form_mp r t n g r2) (fun '(res, r') => res = Ok tt /\ becomes r r' ((mpval t * mg_radix n) mod mpval n)).
Proof. exact to_form_correct. Qed.
Print Assumptions C31_to_form_partial.

(** For all odd moduli, those losing a carry included: the result is a residue, and it is the right one exactly if no carry is lost. *)
Theorem C31_to_form_exact : forall (c : cfg) r t n g r2, mp_ok r -> mp_ok t -> mp_ok n -> mp_ok r2 -> Z.odd (mpval n) = true -> neg_inv n g ->
  len_compat n (mp_len r) -> len_compat t (mp_len n) -> mpval t < mpval n -> len_compat r2 (mp_len n) -> 0 < mp_len r2 ->
  mpval r2 = (mg_radix n * mg_radix n) mod mpval n -> mg_room r n ->
  yields (ct_to_montgomery_form_mp r t n g r2) (fun '(res, r') => res = Ok tt /\ exists v, becomes r r' v /\ 0 <= v < mpval n /\
    (v = (mpval t * mg_radix n) mod mpval n <-> mg_no_carry_lost t r2 n)).
Proof. exact to_form_any. Qed.
Print Assumptions C31_to_form_exact.

(** The exact value. *)
Theorem C31_to_form_value : forall (c : cfg) r t n g r2, mp_ok r -> mp_ok t -> mp_ok n -> mp_ok r2 -> Z.odd (mpval n) = true -> neg_inv n g ->
  len_compat n (mp_len r) -> len_compat t (mp_len n) -> mpval t < mpval n -> len_compat r2 (mp_len n) -> 0 < mp_len r2 ->
  mpval r2 = (mg_radix n * mg_radix n) mod mpval n -> mg_room r n ->
  yields (ct_to_montgomery_form_mp r t n g r2) (fun '(res, r') => res = Ok tt /\
    becomes r r' (mg_product n g (mpval t) ((mg_radix n * mg_radix n) mod mpval n))).
Proof. exact to_form_value. Qed.
Print Assumptions C31_to_form_value.

Theorem C31_to_form_errors : forall (c : cfg) r t n g r2, mp_ok r -> mp_ok t -> mp_ok n -> mp_ok r2 ->
  (~ len_compat t (mp_len n) -> returns (ct_to_montgomery_form_mp r t n g r2) (Err MgInconsistentOperandLengths, r)) /\
  (len_compat t (mp_len n) -> ~ len_compat r2 (mp_len n) -> returns (ct_to_montgomery_form_mp r t n g r2) (Err MgInconsistentRadixLength, r)).
Proof. exact to_form_errors. Qed.
Print Assumptions C31_to_form_errors.

(** Converting to Montgomery form and reducing gives the number back. *)
Theorem C31_round_trip_partial : forall (c : cfg) t n g, mp_ok t -> mp_ok n -> Z.odd (mpval n) = true -> 2 <= nlimbs n -> neg_inv n g ->
  len_compat n (mp_len t) -> mp_len t <= 2 * mp_len n ->
  yields (let! x := ct_to_montgomery_form_direct_mp t n in ct_montgomery_redc_mp (snd x) n g)
    (fun '(res, t') => res = Ok tt /\ becomes t t' (mpval t mod mpval n)).
Proof. exact roundtrip_correct. Qed.
Print Assumptions C31_round_trip_partial.

(** A concrete case meeting the hypotheses of all of these. *)
Example ex_form : let c := mkcfg false false true true in
  let n := BE [0x80; 0; 0; 0; 0; 0; 0; 3] in let t := LE [1; 2; 3; 4; 5; 6; 7; 8] in let r := NE [7; 7] in let g := 0x55555555 in
  mp_ok r /\ mp_ok t /\ mp_ok n /\ Z.odd (mpval n) = true /\ 2 <= nlimbs n /\ neg_inv n g /\ len_compat n (mp_len t) /\ len_compat n (mp_len r) /\
  len_compat t (mp_len n) /\ mpval t < mpval n /\ mg_carry_ok n /\ mg_room r n /\ 16 * (mp_len n + LB) + 8 < 2 ^ UW /\
  snd (ct_to_montgomery_form_direct_mp t n) = Some (Ok tt, LE [253; 243; 237; 231; 225; 219; 213; 79]) /\
  snd (ct_montgomery_radix2_mod_n_mp r n) = Some (Ok tt, NE [36; 0]) /\
  snd (ct_to_montgomery_form_mp r t n g (NE [36; 0])) = Some (Ok tt, NE [3891131389; 1339415521]).
Proof.
  cbv zeta. split; [okmp|]. split; [okmp|]. split; [okmp|]. split; [vm_compute; reflexivity|]. split; [vm_compute; congruence|].
  split; [split; [split; [vm_compute; congruence|vm_compute; reflexivity]|vm_compute; reflexivity]|].
  split; [left; vm_compute; congruence|]. split; [left; vm_compute; congruence|]. split; [left; vm_compute; congruence|].
  split; [vm_compute; reflexivity|]. split; [vm_compute; congruence|]. split; [left; split; [vm_compute; congruence|intros _; vm_compute; reflexivity]|].
  split; [vm_compute; reflexivity|]. split; [vm_compute; reflexivity|]. split; [vm_compute; reflexivity|]. vm_compute; reflexivity.
Qed.

(** ** C32: modular exponentiation *)

(** With the base given in Montgomery form: op0 is the form of some b, the result is the form of b^e, where only the
    nbits low bits of the exponent count. The missing cases are those of C30. *)
Theorem C32_montgomery_exp_partial : forall (c : cfg) r op0 n g radix e nbits s b, mp_ok r -> mp_ok op0 -> mp_ok n -> mp_ok radix -> mp_ok e -> mp_ok (NE s) ->
  Z.odd (mpval n) = true -> neg_inv n g -> len_compat n (mp_len r) -> nlimbs n <= zlen s ->
  len_compat op0 (mp_len n) -> 0 < mp_len op0 -> mpval op0 = (b * mg_radix n) mod mpval n ->
  len_compat radix (mp_len n) -> mpval radix = mg_radix n mod mpval n ->
  mg_carry_ok n -> mg_room r n -> mg_room (NE s) n -> 0 <= nbits ->
  yields (ct_montgomery_exp_mod_odd_mp_mp r op0 n g radix e nbits s) (fun '(res, r', s') =>
    res = Ok tt /\ becomes r r' ((b ^ (mpval e mod 2 ^ nbits) * mg_radix n) mod mpval n) /\ zlen s' = zlen s).
Proof. exact mexp_correct. Qed.
Print Assumptions C32_montgomery_exp_partial.

(** The power of a residue. The missing cases are those of C29 and C30. *)
Theorem C32_exp_partial : forall (c : cfg) r op0 n e nbits s, mp_ok r -> mp_ok op0 -> mp_ok n -> mp_ok e -> mp_ok (NE s) ->
  Z.odd (mpval n) = true -> 2 <= nlimbs n -> len_compat n (mp_len r) -> len_compat op0 (mp_len n) -> mpval op0 < mpval n -> len_compat n (mp_len op0) ->
  nlimbs n <= zlen s -> 16 * (mp_len n + LB) + 8 < 2 ^ UW ->
  mg_carry_ok n -> mg_room r n -> mg_room (NE s) n -> 0 <= nbits ->
  yields (ct_exp_mod_odd_mp_mp r op0 n e nbits s) (fun '(res, r', op0', s') =>
    res = Ok tt /\ becomes r r' (mpval op0 ^ (mpval e mod 2 ^ nbits) mod mpval n) /\ mp_ok op0' /\ same_shape op0 op0' /\ zlen s' = zlen s).
Proof. exact exp_correct. Qed.
Print Assumptions C32_exp_partial.

(** For all odd moduli of at least two limbs, those losing carries included, exponentiations do not panic, give a residue, and the
    right one if none of the products it depends on loses a carry ([mg_fine], [mg_exp_fine], SpecMont.v). *)
Theorem C32_exp_any : forall (c : cfg) r op0 n e nbits s, mp_ok r -> mp_ok op0 -> mp_ok n -> mp_ok e -> mp_ok (NE s) ->
  Z.odd (mpval n) = true -> 2 <= nlimbs n -> len_compat n (mp_len r) -> len_compat op0 (mp_len n) -> mpval op0 < mpval n -> len_compat n (mp_len op0) ->
  nlimbs n <= zlen s -> 16 * (mp_len n + LB) + 8 < 2 ^ UW ->
  mg_room r n -> mg_room (NE s) n -> 0 <= nbits ->
  yields (ct_exp_mod_odd_mp_mp r op0 n e nbits s) (fun '(res, r', op0', s') =>
    res = Ok tt /\ mp_ok op0' /\ same_shape op0 op0' /\ zlen s' = zlen s /\ exists v, becomes r r' v /\ 0 <= v < mpval n /\
    (mg_fine n (mpval op0) ((mg_radix n * mg_radix n) mod mpval n) -> mg_exp_fine n (mpval op0) (mpval e mod 2 ^ nbits) nbits ->
     v = mpval op0 ^ (mpval e mod 2 ^ nbits) mod mpval n)).
Proof. exact exp_any. Qed.
Print Assumptions C32_exp_any.

Theorem C32_montgomery_exp_any : forall (c : cfg) r op0 n g radix e nbits s b, mp_ok r -> mp_ok op0 -> mp_ok n -> mp_ok radix -> mp_ok e -> mp_ok (NE s) ->
  Z.odd (mpval n) = true -> neg_inv n g -> len_compat n (mp_len r) -> nlimbs n <= zlen s ->
  len_compat op0 (mp_len n) -> 0 < mp_len op0 -> mpval op0 = (b * mg_radix n) mod mpval n ->
  len_compat radix (mp_len n) -> mpval radix = mg_radix n mod mpval n ->
  mg_room r n -> mg_room (NE s) n -> 0 <= nbits ->
  yields (ct_montgomery_exp_mod_odd_mp_mp r op0 n g radix e nbits s) (fun '(res, r', s') =>
    res = Ok tt /\ zlen s' = zlen s /\ exists v, becomes r r' v /\ 0 <= v < mpval n /\
    (mg_exp_fine n b (mpval e mod 2 ^ nbits) nbits -> v = (b ^ (mpval e mod 2 ^ nbits) * mg_radix n) mod mpval n)).
Proof. exact mexp_any. Qed.
Print Assumptions C32_montgomery_exp_any.

(** What exactly comes out, wrong or not ([mg_product] and [mg_power], SpecMontValue.v): the power of the operand, which need not be
    the Montgomery form of anything in particular, for as many bits as are asked for, but no more than the exponent has. *)
Theorem C32_montgomery_exp_value : forall (c : cfg) r op0 n g radix e nbits s, mp_ok r -> mp_ok op0 -> mp_ok n -> mp_ok radix -> mp_ok e -> mp_ok (NE s) ->
  Z.odd (mpval n) = true -> neg_inv n g -> len_compat n (mp_len r) -> nlimbs n <= zlen s ->
  len_compat op0 (mp_len n) -> 0 < mp_len op0 -> mpval op0 < mpval n ->
  len_compat radix (mp_len n) -> mpval radix = mg_radix n mod mpval n ->
  mg_room r n -> mg_room (NE s) n -> 0 <= nbits ->
  yields (ct_montgomery_exp_mod_odd_mp_mp r op0 n g radix e nbits s) (fun '(res, r', s') =>
    res = Ok tt /\ zlen s' = zlen s /\
    becomes r r' (mg_power n g (mpval op0) (mpval e) (mg_radix n mod mpval n) (Z.to_nat (Z.min nbits (8 * mp_len e))))).
Proof. exact mexp_value. Qed.
Print Assumptions C32_montgomery_exp_value.

Theorem C32_exp_value : forall (c : cfg) r op0 n e nbits s g, mp_ok r -> mp_ok op0 -> mp_ok n -> mp_ok e -> mp_ok (NE s) ->
  Z.odd (mpval n) = true -> 2 <= nlimbs n -> len_compat n (mp_len r) -> len_compat op0 (mp_len n) -> mpval op0 < mpval n -> len_compat n (mp_len op0) ->
  nlimbs n <= zlen s -> 16 * (mp_len n + LB) + 8 < 2 ^ UW ->
  mg_room r n -> mg_room (NE s) n -> 0 <= nbits -> neg_inv n g ->
  let form := mg_product n g (mpval op0) ((mg_radix n * mg_radix n) mod mpval n) in
  let power := mg_power n g form (mpval e) (mg_radix n mod mpval n) (Z.to_nat (Z.min nbits (8 * mp_len e))) in
  yields (ct_exp_mod_odd_mp_mp r op0 n e nbits s) (fun '(res, r', op0', s') =>
    res = Ok tt /\ mp_ok op0' /\ same_shape op0 op0' /\ zlen s' = zlen s /\ exists v, becomes r r' v /\ mg_reduced n power v).
Proof. exact exp_value. Qed.
Print Assumptions C32_exp_value.

(** (n - 1)^2 = 1 modulo n is computed to be something else if n is the field prime of P-192, P-384, secp256k1 or Curve448, the order of
    the group of P-384 or secp256k1 or the prime of a Diffie-Hellman group ([wrong_squares], SpecMontValue.v), whatever the encoding, in every configuration. *)
Theorem C32_exp_minus_one_refuted : forall (c : cfg) r op0 n e nbits s, mp_ok r -> mp_ok op0 -> mp_ok n -> mp_ok e -> mp_ok (NE s) ->
  In (mp_len n, mpval n) wrong_squares -> mp_len n <= mp_len r -> len_compat op0 (mp_len n) -> len_compat n (mp_len op0) -> nlimbs n <= zlen s ->
  mpval op0 = mpval n - 1 -> mpval e = 2 -> 2 <= nbits ->
  mpval op0 ^ 2 mod mpval n = 1 /\
  yields (ct_exp_mod_odd_mp_mp r op0 n e nbits s) (fun '(res, r', _, _) => res = Ok tt /\ exists v, becomes r r' v /\ 0 <= v < mpval n /\ v <> 1).
Proof. exact exp_minus_one. Qed.
Print Assumptions C32_exp_minus_one_refuted.

(** A buffer of 32 bytes and the prime of secp256k1 are among those. *)
Example ex_wrong_squares : let c := mkcfg true true true true in let n := BE (zrepeat 255 27 ++ [254; 255; 255; 252; 47]) in
  mp_ok n /\ mp_len n = 32 /\ mpval n = secp256k1 /\ In (mp_len n, mpval n) wrong_squares.
Proof.
  cbv zeta. split; [okmp|]. split; [reflexivity|]. split; [vm_compute; reflexivity|]. right. right. left. vm_compute. reflexivity.
Qed.

(** No product does for moduli meeting the guard of the theorems above, nor if the second factor is small enough. *)
Theorem C32_fine : forall (c : cfg) n, 0 < mpval n ->
  (mg_carry_ok n -> (forall a b, 0 <= a -> 0 <= b < mpval n -> mg_fine n a b) /\ (forall b e k, mg_exp_fine n b e k)) /\
  (forall a b, 0 <= a -> 0 <= b -> B * b + mpval n <= B * mg_radix n -> mg_fine n a b).
Proof. intros c n Hn. split; [exact (carry_ok_exp_fine c n Hn)|intros a b; exact (carry_ok_fine c n a b Hn)]. Qed.
Print Assumptions C32_fine.

(** 5^13 modulo 2^64 - 3, which does not meet that guard with limbs of 32 bits, meets the hypotheses. *)
Example ex_exp_any : let c := mkcfg false false true true in
  let n := NE [4294967293; 4294967295] in let x := NE [5; 0] in let e := BE [13] in let r := NE [7; 7] in
  mp_ok r /\ mp_ok x /\ mp_ok n /\ mp_ok e /\ Z.odd (mpval n) = true /\ nlimbs n = 2 /\ len_compat n (mp_len r) /\ len_compat x (mp_len n) /\ mpval x < mpval n /\
  len_compat n (mp_len x) /\ 16 * (mp_len n + LB) + 8 < 2 ^ UW /\ mg_room r n /\ ~ mg_carry_ok n /\
  mg_fine n (mpval x) ((mg_radix n * mg_radix n) mod mpval n) /\ mg_exp_fine n (mpval x) (mpval e mod 2 ^ 4) 4 /\
  mpval x ^ (mpval e mod 2 ^ 4) mod mpval n = 1220703125.
Proof.
  cbv zeta. split; [okmp|]. split; [okmp|]. split; [okmp|]. split; [okmp|]. split; [vm_compute; reflexivity|]. split; [reflexivity|].
  split; [left; vm_compute; congruence|]. split; [left; vm_compute; congruence|]. split; [vm_compute; reflexivity|]. split; [left; vm_compute; congruence|].
  split; [vm_compute; reflexivity|]. split; [left; split; [vm_compute; congruence|intros _; vm_compute; reflexivity]|]. split; [intros X; vm_compute in X; congruence|].
  split; [apply carry_ok_fine; vm_compute; congruence|]. split; [|vm_compute; reflexivity].
  intros j Hj. assert (D : j = 0 \/ j = 1 \/ j = 2 \/ j = 3) by lia.
  destruct D as [-> |[-> |[-> | ->]]]; (split; [|intros _]; apply carry_ok_fine; vm_compute; congruence).
Qed.

Theorem C32_exp_errors : forall (c : cfg) r op0 n e nbits s, mp_ok r -> mp_ok op0 -> mp_ok n ->
  let call := ct_exp_mod_odd_mp_mp r op0 n e nbits s in
  (~ len_compat n (mp_len r) -> returns call (Err MgInsufficientResultSpace, r, op0, s)) /\
  (len_compat n (mp_len r) -> ~ len_compat op0 (mp_len n) -> returns call (Err MgInconsistentOperandLengths, r, op0, s)) /\
  (len_compat n (mp_len r) -> len_compat op0 (mp_len n) -> mpval op0 < mpval n -> ~ len_compat n (mp_len op0) ->
     returns call (Err MgInconsistentOperandLengths, r, op0, s)) /\
  (len_compat n (mp_len r) -> len_compat op0 (mp_len n) -> mpval op0 < mpval n -> len_compat n (mp_len op0) -> zlen s < nlimbs n ->
     returns call (Err MgInsufficientScratchSpace, r, op0, s)) /\
  (len_compat n (mp_len r) -> len_compat op0 (mp_len n) -> mpval op0 < mpval n -> len_compat n (mp_len op0) -> nlimbs n <= zlen s ->
     Z.odd (mpval n) = false -> returns call (Err MgInvalidModulus, r, op0, s)).
Proof. exact exp_errors. Qed.
Print Assumptions C32_exp_errors.

(** The lost carry of C30 shows: (n - 1)^2 mod n is computed to be 0 for n = B^2 - 3, in every configuration. *)
Theorem C32_exp_carry_refuted : forall (c : cfg), exists r op0 n e s r' op0' s', mp_ok r /\ mp_ok op0 /\ mp_ok n /\ mp_ok e /\ mp_ok (NE s) /\
  Z.odd (mpval n) = true /\ mp_len r = mp_len n /\ mp_len op0 = mp_len n /\ zlen s = nlimbs n /\ mpval op0 = mpval n - 1 /\ mpval e = 2 /\
  returns (ct_exp_mod_odd_mp_mp r op0 n e 2 s) (Ok tt, r', op0', s') /\ mpval r' = 0 /\ mpval op0 ^ 2 mod mpval n = 1.
Proof.
  intros c. exists (NE [0; 0]), (NE [B - 4; B - 1]), (NE [B - 3; B - 1]), (BE [2]), [0; 0]. destruct c as [l64 am u64 d]. destruct l64, am, u64, d;
  (eexists; eexists; eexists; split; [okmp|]; split; [okmp|]; split; [okmp|]; split; [okmp|]; split; [okmp|];
   split; [vm_compute; reflexivity|]; split; [vm_compute; reflexivity|]; split; [vm_compute; reflexivity|]; split; [vm_compute; reflexivity|]; 
   split; [vm_compute; reflexivity|]; split; [vm_compute; reflexivity|];
   split; [vm_compute; reflexivity|]; split; [vm_compute; reflexivity|vm_compute; reflexivity]).
Qed.
Print Assumptions C32_exp_carry_refuted.

(** The reduction's panic of C29 makes every exponentiation modulo a single limb which passes the checks panic. *)
Theorem C32_exp_single_limb : forall (c : cfg) r op0 n e nbits s, mp_ok r -> mp_ok op0 -> mp_ok n -> 
  Z.odd (mpval n) = true -> nlimbs n = 1 -> len_compat n (mp_len r) -> len_compat op0 (mp_len n) -> len_compat n (mp_len op0) -> 1 <= zlen s ->
  panics (ct_exp_mod_odd_mp_mp r op0 n e nbits s).
Proof. exact exp_single. Qed.
Print Assumptions C32_exp_single_limb.

(** For example 4^1 modulo 5. *)
Theorem C32_exp_single_limb_refuted : forall (c : cfg), exists r op0 n e s, mp_ok r /\ mp_ok op0 /\ mp_ok n /\ mp_ok e /\ mp_ok (NE s) /\
  Z.odd (mpval n) = true /\ mp_len r = mp_len n /\ mp_len op0 = mp_len n /\ nlimbs n <= zlen s /\ mpval op0 < mpval n /\ mpval e = 1 /\
  panics (ct_exp_mod_odd_mp_mp r op0 n e 8 s).
Proof.
  intros c. exists (BE [0]), (BE [4]), (BE [5]), (BE [1]), [0; 0]. destruct c as [l64 am u64 d]. destruct l64, am, u64, d;
  (split; [okmp|]; split; [okmp|]; split; [okmp|]; split; [okmp|]; split; [okmp|];
   split; [vm_compute; reflexivity|]; split; [vm_compute; reflexivity|]; split; [vm_compute; reflexivity|]; split; [vm_compute; congruence|]; 
   split; [vm_compute; reflexivity|]; split; [vm_compute; reflexivity|]; vm_compute; reflexivity).
Qed.
Print Assumptions C32_exp_single_limb_refuted.

(** A concrete case meeting the hypotheses: 0x0807060504030201 ^ 13 modulo 2^63 + 3. *)
Example ex_exp : let c := mkcfg false false true true in
  let n := BE [0x80; 0; 0; 0; 0; 0; 0; 3] in let op0 := LE [1; 2; 3; 4; 5; 6; 7; 8] in let r := NE [7; 7] in let e := BE [0xfd] in let s := [9; 9] in
  mp_ok r /\ mp_ok op0 /\ mp_ok n /\ mp_ok e /\ mp_ok (NE s) /\ Z.odd (mpval n) = true /\ 2 <= nlimbs n /\ len_compat n (mp_len r) /\
  len_compat op0 (mp_len n) /\ mpval op0 < mpval n /\ len_compat n (mp_len op0) /\ nlimbs n <= zlen s /\ 16 * (mp_len n + LB) + 8 < 2 ^ UW /\
  mg_carry_ok n /\ mg_room r n /\ mg_room (NE s) n /\
  exists r' op0' s', snd (ct_exp_mod_odd_mp_mp r op0 n e 4 s) = Some (Ok tt, r', op0', s') /\ mpval r' = mpval op0 ^ 13 mod mpval n.
Proof.
  cbv zeta. split; [okmp|]. split; [okmp|]. split; [okmp|]. split; [okmp|]. split; [okmp|]. split; [vm_compute; reflexivity|]. split; [vm_compute; congruence|].
  split; [left; vm_compute; congruence|]. split; [left; vm_compute; congruence|]. split; [vm_compute; reflexivity|]. split; [left; vm_compute; congruence|].
  split; [vm_compute; congruence|]. split; [vm_compute; reflexivity|].
  split; [vm_compute; congruence|]. split; [left; split; [vm_compute; congruence|intros _; vm_compute; reflexivity]|].
  split; [left; split; [vm_compute; congruence|intros _; vm_compute; reflexivity]|].
  eexists. eexists. eexists. split; [vm_compute; reflexivity|vm_compute; reflexivity].
Qed.
