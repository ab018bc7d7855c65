(** Theorems about sequences of calls, continued: products through Montgomery form that are wrong (C48), and the two ways to invert modulo a prime that disagree (C51), and a product of
    greatest common divisor and least common multiple that is wrong (C52).
    [exp_modulus_any], [residue_buf], [result_buf], [exp_scratch] and [expo] are in SpecApp.v, [is_inverse], [mut_compat] and [gcd_len_ok] in SpecEuclid.v, [prime] is the standard library's. *)
From Coq Require Import ZArith Znumtheory List Lia.
Require Import Verif.Spec Verif.Monad Verif.ModelLimb Verif.ModelBuf Verif.SpecBuf Verif.SpecMont Verif.SpecMul Verif.SpecEuclid Verif.ModelMul Verif.ModelMont Verif.ModelEuclid Verif.ModelLcm
  Verif.SpecApp Verif.PrimeCert2 Verif.AppProofs6.
Import ListNotations.
Open Scope Z_scope.

(** ** C48: products through Montgomery form *)

(** Violated. For every odd modulus close enough to the Montgomery radix there are two numbers below it whose product, computed through Montgomery form, is wrong, whatever
    buffers hold them. All calls succeed. This is what the lost carry of C30 amounts to for someone who only multiplies. *)
Theorem C48_montgomery_product_refuted : forall (c : cfg) n i, exp_modulus_any n -> 1 <= i -> B ^ i * B * mg_radix n + B ^ i * B ^ i * B <= (B ^ i * (B + 1) - 2) * mpval n ->
  exists x y, 0 <= x < mpval n /\ 0 <= y < mpval n /\ forall a b r, residue_buf n a -> residue_buf n b -> mpval a = x -> mpval b = y -> result_buf n r ->
  yields (let! '(e1, a1) := ct_to_montgomery_form_direct_mp a n in let! '(e2, b1) := ct_to_montgomery_form_direct_mp b n in
          let! g := ct_montgomery_neg_n0_inv_mod_l_mp n in
          match g with
          | Ok g => let! '(e3, x) := ct_montgomery_mul_mod_mp_mp r a1 b1 n g in let! '(e4, y) := ct_montgomery_redc_mp x n g in ret ([e1; e2; e3; e4], y)
          | Err _ => panic
          end)
    (fun '(es, z) => es = [Ok tt; Ok tt; Ok tt; Ok tt] /\ mpval z <> (x * y) mod mpval n).
Proof. exact @product_near_radix. Qed.
Print Assumptions C48_montgomery_product_refuted.
(** So it is with the primes of NIST P-384 and of secp256k1, and with the one of NIST P-256 when limbs have 32 bits. *)
Theorem C48_product_curves_refuted : forall (c : cfg) n, exp_modulus_any n ->
  (mp_len n = 48 /\ mpval n = p384) \/ (mp_len n = 32 /\ mpval n = secp256k1) \/ (limb64 c = false /\ mp_len n = 32 /\ mpval n = p256) ->
  exists x y, 0 <= x < mpval n /\ 0 <= y < mpval n /\ forall a b r, residue_buf n a -> residue_buf n b -> mpval a = x -> mpval b = y -> result_buf n r ->
  yields (let! '(e1, a1) := ct_to_montgomery_form_direct_mp a n in let! '(e2, b1) := ct_to_montgomery_form_direct_mp b n in
          let! g := ct_montgomery_neg_n0_inv_mod_l_mp n in
          match g with
          | Ok g => let! '(e3, x) := ct_montgomery_mul_mod_mp_mp r a1 b1 n g in let! '(e4, y) := ct_montgomery_redc_mp x n g in ret ([e1; e2; e3; e4], y)
          | Err _ => panic
          end)
    (fun '(es, z) => es = [Ok tt; Ok tt; Ok tt; Ok tt] /\ mpval z <> (x * y) mod mpval n).
Proof. exact @product_curves. Qed.
Print Assumptions C48_product_curves_refuted.

Ltac okmp := split; [repeat constructor; vm_compute; congruence|vm_compute; reflexivity].
Example ex_product_curves : let c := mkcfg true false true false in let n := NE [4294967295; 18446744069414584320; 18446744073709551614; 18446744073709551615; 18446744073709551615; 18446744073709551615] in
  let a := NE [4294967293; 18446744069414584320; 18446744073709551614; 18446744073709551615; 18446744073709551615; 18446744073709551615] in
  exp_modulus_any n /\ mp_len n = 48 /\ mpval n = p384 /\ residue_buf n a /\ mpval a < mpval n /\ result_buf n a /\
  B ^ 1 * B * mg_radix n + B ^ 1 * B ^ 1 * B <= (B ^ 1 * (B + 1) - 2) * mpval n.
Proof.
  cbv zeta. split; [split; [okmp|]; split; [vm_compute; reflexivity|]; split; vm_compute; [congruence|reflexivity]|]. split; [reflexivity|]. split; [vm_compute; reflexivity|].
  split; [split; [okmp|left; reflexivity]|]. split; [vm_compute; reflexivity|].
  split; [split; [split; [okmp|left; reflexivity]|left; split; [vm_compute; congruence|intros _; vm_compute; reflexivity]]|]. vm_compute; congruence.
Qed.

(** ** C51: inverses modulo a prime *)

(** Violated. 2^255-19 is a prime. The inverse of 50 modulo it obtained by Fermat's theorem, as the power to the modulus less two, is right; the one computed by
    [ct_inv_mod_odd_mp_mp] is not, and no error is reported: see C39. *)
Theorem C51_inverse_fermat_refuted : forall (c : cfg) n x e k r r2 x2 s s0 s1, mp_ok n -> mpval n = p25519 -> mp_len n = 32 ->
  residue_buf n x -> residue_buf n x2 -> mpval x = 50 -> mpval x2 = 50 ->
  mp_ok e -> 0 <= k -> expo e k = mpval n - 2 -> result_buf n r -> residue_buf n r2 -> exp_scratch n s ->
  mp_ok (NE s0) -> mp_ok (NE s1) -> nlimbs n <= zlen s0 -> nlimbs n <= zlen s1 ->
  prime (mpval n) /\
  yields (let! '(e1, y, _, _) := ct_exp_mod_odd_mp_mp r x n e k s in
          let! '(e2, z, _, _, _) := ct_inv_mod_odd_mp_mp r2 x2 n s0 s1 in ret (e1, e2, y, z))
    (fun '(e1, e2, y, z) => e1 = Ok tt /\ e2 = Ok tt /\ is_inverse (mpval n) (mpval x) (mpval y) /\ ~ is_inverse (mpval n) (mpval x) (mpval z)).
Proof. exact @fermat_wrong. Qed.
Print Assumptions C51_inverse_fermat_refuted.

Example ex_inverse_fermat : let c := mkcfg true false true false in
  let n := LE [237; 255; 255; 255; 255; 255; 255; 255; 255; 255; 255; 255; 255; 255; 255; 255; 255; 255; 255; 255; 255; 255; 255; 255; 255; 255; 255; 255; 255; 255; 255; 127] in
  let e := BE [127; 255; 255; 255; 255; 255; 255; 255; 255; 255; 255; 255; 255; 255; 255; 255; 255; 255; 255; 255; 255; 255; 255; 255; 255; 255; 255; 255; 255; 255; 255; 235] in
  let x := LE [50; 0; 0; 0; 0; 0; 0; 0; 0; 0; 0; 0; 0; 0; 0; 0; 0; 0; 0; 0; 0; 0; 0; 0; 0; 0; 0; 0; 0; 0; 0; 0] in let r := BE [0; 0; 0; 0; 0; 0; 0; 0; 0; 0; 0; 0; 0; 0; 0; 0; 0; 0; 0; 0; 0; 0; 0; 0; 0; 0; 0; 0; 0; 0; 0; 0] in let s := [0; 0; 0; 0] in
  mp_ok n /\ mpval n = p25519 /\ mp_len n = 32 /\ residue_buf n x /\ mpval x = 50 /\ mp_ok e /\ expo e 256 = mpval n - 2 /\ result_buf n r /\ exp_scratch n s /\ nlimbs n = zlen s.
Proof.
  cbv zeta. split; [okmp|]. split; [vm_compute; reflexivity|]. split; [reflexivity|]. split; [split; [okmp|left; reflexivity]|]. split; [vm_compute; reflexivity|].
  split; [okmp|]. split; [vm_compute; reflexivity|]. split; [split; [split; [okmp|left; reflexivity]|right; vm_compute; congruence]|].
  split; [split; [okmp|]; split; [vm_compute; congruence|right; vm_compute; congruence]|]. vm_compute; reflexivity.
Qed.

(** ** C52: greatest common divisor times least common multiple *)

(** Violated. Operands in different encodings, whose lengths differ within alignment excess, are accepted. In release builds the product of their greatest common divisor and
    their least common multiple, with all buffers longer than needed, is then not always that of the operands, and no error is reported: see C37. *)
Theorem C52_gcd_lcm_refuted : forall c : cfg, debug c = false -> exists a b l0 l1 res scr, mp_ok a /\ mp_ok b /\ mp_ok res /\ mp_ok scr /\ 0 < mp_len a /\ mut_compat a b /\
  gcd_len_ok (Z.max (mp_len a) (mp_len b)) /\ kind_of scr = kind_of b /\ 0 < l0 <= mp_len a /\ 0 < l1 <= mp_len b /\
  mpval a < 256 ^ l0 /\ mpval b < 256 ^ l1 /\ l0 + l1 + LB <= mp_len res /\ l0 + l1 <= mp_len scr /\
  yields (let! '(r1, g, _) := ct_gcd_mp_mp a b in let! '(r2, m, _, _, _) := ct_lcm_mp_mp res a l0 b l1 scr in
          let! p := ct_mul_trunc_mp_mp m (l0 + l1) g in ret (r1, r2, p))
    (fun '(r1, r2, p) => r1 = Ok tt /\ r2 = Ok tt /\ mpval p <> mpval a * mpval b).
Proof. exact @gcd_lcm_wrong. Qed.
Print Assumptions C52_gcd_lcm_refuted.
