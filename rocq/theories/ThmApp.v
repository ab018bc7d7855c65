(** Theorems about sequences of calls, the way applications combine them: properties C47 to C52. The programs are written out in the
    statements; errors are carried to the end, a missing value counts as a panic. *)
From Coq Require Import ZArith Znumtheory List Lia.
Require Import Verif.Spec Verif.Monad Verif.ModelLimb Verif.ModelBuf Verif.SpecBuf Verif.ModelAdd Verif.ModelShift Verif.ModelMul Verif.ModelDiv
  Verif.SpecDiv Verif.SpecMont Verif.ModelMont Verif.SpecEuclid Verif.SpecSteps Verif.ModelEuclid Verif.ModelLcm Verif.SpecApp Verif.AppProofs Verif.AppFine Verif.MontFine Verif.PrimeFine.
Import ListNotations.
Open Scope Z_scope.

(** ** C47: operations undo each other *)

(** What has been added can be taken away again, even if the sum wraps around; the borrow then tells about the carry. *)
Theorem C47_add_sub : forall (c : cfg) a b, mp_ok a -> mp_ok b -> nlimbs b <= nlimbs a -> mpval b < 256 ^ mp_len a ->
  yields (let! '(a1, carry) := ct_add_mp_mp a b in let! '(a2, borrow) := ct_sub_mp_mp a1 b in ret (a2, carry, borrow))
    (fun '(a2, carry, borrow) => a2 = a /\ carry = borrow).
Proof. exact @add_sub_back. Qed.
Print Assumptions C47_add_sub.
Theorem C47_sub_add : forall (c : cfg) a b, mp_ok a -> mp_ok b -> nlimbs b <= nlimbs a -> mpval b < 256 ^ mp_len a ->
  yields (let! '(a1, borrow) := ct_sub_mp_mp a b in let! '(a2, carry) := ct_add_mp_mp a1 b in ret (a2, borrow, carry))
    (fun '(a2, borrow, carry) => a2 = a /\ carry = borrow).
Proof. exact @sub_add_back. Qed.
Print Assumptions C47_sub_add.
Theorem C47_negate : forall (c : cfg) a, mp_ok a -> yields (let! a1 := ct_negate_mp a in ct_negate_mp a1) (fun a2 => a2 = a).
Proof. exact @negate_back. Qed.
Print Assumptions C47_negate.
(** Shifting to the left by no more than the leading zeros, and back. *)
Theorem C47_shift : forall (c : cfg) a d, mp_ok a -> 0 <= d < 2 ^ UW -> mpval a * 2 ^ d < 256 ^ mp_len a ->
  yields (let! '(a1, out) := ct_lshift_mp a d in let! '(a2, out2) := ct_rshift_mp a1 d in ret (a2, out, out2))
    (fun '(a2, out, out2) => a2 = a /\ out = 0 /\ out2 = 0).
Proof. exact @shift_back. Qed.
Print Assumptions C47_shift.
(** The same for sums and differences modulo n. *)
Theorem C47_mod_add_sub : forall (c : cfg) a b n, mp_ok a -> mp_ok b -> mp_ok n -> mp_len a = mp_len n -> mpval a < mpval n -> mpval b < mpval n ->
  yields (let! '(a1, r1) := ct_add_mod_mp_mp a b n in let! '(a2, r2) := ct_sub_mod_mp_mp a1 b n in ret (a2, r1, r2))
    (fun '(a2, r1, r2) => a2 = a /\ r1 = Ok tt /\ r2 = Ok tt).
Proof. exact @mod_add_sub_back. Qed.
Print Assumptions C47_mod_add_sub.
(** A product divided by one of its factors: the quotient is the other one, the remainder zero. *)
Theorem C47_mul_div : forall (c : cfg) a l b m q, mp_ok a -> mp_ok b -> mp_ok q -> 0 <= l -> mpval a < 256 ^ l -> l + mp_len b <= mp_len a ->
  byte_len (mpval b) m -> mp_len a <= mp_len q + m -> mpval a < 256 ^ mp_len q ->
  yields (let! a1 := ct_mul_trunc_mp_mp a l b in let! d := mp_divisor_new b None in
          match d with Ok d => ct_div_mp_mp None a1 d (Some q) | Err _ => panic end)
    (fun '(res, _, rem, q') => res = Ok tt /\ becomes a rem 0 /\ exists x, q' = Some x /\ becomes q x (mpval a)).
Proof. exact @mul_div_back. Qed.
Print Assumptions C47_mul_div.
(** Quotient times divisor plus remainder, computed in a zeroed buffer w, is the dividend. *)
Theorem C47_div_mul : forall (c : cfg) u v m q w, mp_ok u -> mp_ok v -> mp_ok q -> mp_ok w ->
  byte_len (mpval v) m -> mp_len u <= mp_len q + m -> mpval u / mpval v < 256 ^ mp_len q -> mp_len u <= mp_len w -> mp_len q <= mp_len w -> mpval w = 0 ->
  yields (let! d := mp_divisor_new v None in
          match d with
          | Ok d => let! '(res, _, rem, q') := ct_div_mp_mp None u d (Some q) in
                    match q' with
                    | Some q' => let! '(w1, c1) := ct_add_mp_mp w q' in let! w2 := ct_mul_trunc_mp_mp w1 (mp_len q) v in
                                 let! '(w3, c3) := ct_add_mp_mp w2 rem in ret (res, w3, c3)
                    | None => panic
                    end
          | Err _ => panic
          end)
    (fun '(res, w3, c3) => res = Ok tt /\ becomes w w3 (mpval u) /\ c3 = 0).
Proof. exact @div_mul_back. Qed.
Print Assumptions C47_div_mul.

(** ** C48: products through Montgomery form *)

(** Converting both factors, multiplying and reducing gives the product modulo n. Missing: the moduli and buffers excluded by
    [exp_modulus] and [result_buf], for which C29 and C30 are refuted. *)
Theorem C48_montgomery_product_partial : forall (c : cfg) n a b r, exp_modulus n -> residue_buf n a -> residue_buf n b -> result_buf n r ->
  yields (let! '(e1, a1) := ct_to_montgomery_form_direct_mp a n in let! '(e2, b1) := ct_to_montgomery_form_direct_mp b n in
          let! g := ct_montgomery_neg_n0_inv_mod_l_mp n in
          match g with
          | Ok g => let! '(e3, x) := ct_montgomery_mul_mod_mp_mp r a1 b1 n g in let! '(e4, y) := ct_montgomery_redc_mp x n g in ret ([e1; e2; e3; e4], y)
          | Err _ => panic
          end)
    (fun '(es, y) => es = [Ok tt; Ok tt; Ok tt; Ok tt] /\ becomes r y ((mpval a * mpval b) mod mpval n)).
Proof. exact @montgomery_product. Qed.
Print Assumptions C48_montgomery_product_partial.
(** For any odd modulus of at least two limbs: the product is right exactly if no carry gets lost, see C30. *)
Theorem C48_montgomery_product_any : forall (c : cfg) n a b r, exp_modulus_any n -> residue_buf n a -> residue_buf n b -> result_buf n r ->
  yields (let! '(e1, a1) := ct_to_montgomery_form_direct_mp a n in let! '(e2, b1) := ct_to_montgomery_form_direct_mp b n in
          let! g := ct_montgomery_neg_n0_inv_mod_l_mp n in
          match g with
          | Ok g => let! '(e3, x) := ct_montgomery_mul_mod_mp_mp r a1 b1 n g in let! '(e4, y) := ct_montgomery_redc_mp x n g in ret ([e1; e2; e3; e4], y)
          | Err _ => panic
          end)
    (fun '(es, y) => es = [Ok tt; Ok tt; Ok tt; Ok tt] /\ mp_ok y /\ same_shape r y /\ 0 <= mpval y < mpval n /\
      (mg_fine n (mg_form n (mpval a)) (mg_form n (mpval b)) <-> mpval y = (mpval a * mpval b) mod mpval n)).
Proof. exact @montgomery_product_any. Qed.
Print Assumptions C48_montgomery_product_any.

(** ** C49: Diffie-Hellman key agreement *)

(** Both parties raise the generator to their secrets, exchange the results, and raise what they get: they end up with the same
    number. Missing: the moduli and buffers for which C32 is refuted. *)
Theorem C49_key_agreement_partial : forall (c : cfg) n g g' a ka b kb ra rb sa sb s1 s2 s3 s4, exp_modulus n ->
  residue_buf n g -> residue_buf n g' -> mpval g < mpval n -> mpval g' = mpval g -> mp_ok a -> 0 <= ka -> mp_ok b -> 0 <= kb ->
  result_buf n ra -> result_buf n rb -> result_buf n sa -> result_buf n sb ->
  exp_scratch n s1 -> exp_scratch n s2 -> exp_scratch n s3 -> exp_scratch n s4 ->
  yields (let! '(e1, pa, _, _) := ct_exp_mod_odd_mp_mp ra g n a ka s1 in
          let! '(e2, pb, _, _) := ct_exp_mod_odd_mp_mp rb g' n b kb s2 in
          let! '(e3, xa, _, _) := ct_exp_mod_odd_mp_mp sa pb n a ka s3 in
          let! '(e4, xb, _, _) := ct_exp_mod_odd_mp_mp sb pa n b kb s4 in ret ([e1; e2; e3; e4], xa, xb))
    (fun '(es, xa, xb) => es = [Ok tt; Ok tt; Ok tt; Ok tt] /\
      becomes sa xa (mpval g ^ (expo a ka * expo b kb) mod mpval n) /\ becomes sb xb (mpval g ^ (expo a ka * expo b kb) mod mpval n)).
Proof. exact @key_agreement. Qed.
Print Assumptions C49_key_agreement_partial.
(** For any odd modulus of at least two limbs, such as the primes of the groups in use, which may lose carries (C30): no panic and no error, and
    the parties agree if none of the four exponentiations loses one. *)
Theorem C49_key_agreement_any : forall (c : cfg) n g g' a ka b kb ra rb sa sb s1 s2 s3 s4, exp_modulus_any n ->
  residue_buf n g -> residue_buf n g' -> mpval g < mpval n -> mpval g' = mpval g -> mp_ok a -> 0 <= ka -> mp_ok b -> 0 <= kb ->
  result_buf n ra -> result_buf n rb -> result_buf n sa -> result_buf n sb ->
  exp_scratch n s1 -> exp_scratch n s2 -> exp_scratch n s3 -> exp_scratch n s4 ->
  yields (let! '(e1, pa, _, _) := ct_exp_mod_odd_mp_mp ra g n a ka s1 in
          let! '(e2, pb, _, _) := ct_exp_mod_odd_mp_mp rb g' n b kb s2 in
          let! '(e3, xa, _, _) := ct_exp_mod_odd_mp_mp sa pb n a ka s3 in
          let! '(e4, xb, _, _) := ct_exp_mod_odd_mp_mp sb pa n b kb s4 in ret ([e1; e2; e3; e4], xa, xb))
    (fun '(es, xa, xb) => es = [Ok tt; Ok tt; Ok tt; Ok tt] /\ mp_ok xa /\ mp_ok xb /\ 0 <= mpval xa < mpval n /\ 0 <= mpval xb < mpval n /\
      (exp_fine n (mpval g) a ka -> exp_fine n (mpval g) b kb ->
       exp_fine n (mpval g ^ expo b kb mod mpval n) a ka -> exp_fine n (mpval g ^ expo a ka mod mpval n) b kb ->
       becomes sa xa (mpval g ^ (expo a ka * expo b kb) mod mpval n) /\ becomes sb xb (mpval g ^ (expo a ka * expo b kb) mod mpval n))).
Proof. exact @key_agreement_any. Qed.
Print Assumptions C49_key_agreement_any.

(** ** C50: RSA *)

(** For distinct primes p and q and exponents inverse to each other modulo p - 1 and modulo q - 1, raising any message below n = p q
    to one exponent and then to the other gives the message back. Missing: the moduli and buffers for which C32 is refuted. *)
Theorem C50_rsa_round_trip_partial : forall (c : cfg) p q n m e ke d kd r r2 s1 s2, prime p -> prime q -> p <> q -> mpval n = p * q -> exp_modulus n ->
  (p - 1 | expo e ke * expo d kd - 1) -> (q - 1 | expo e ke * expo d kd - 1) -> 0 < expo e ke * expo d kd ->
  residue_buf n m -> mpval m < mpval n -> mp_ok e -> 0 <= ke -> mp_ok d -> 0 <= kd -> result_buf n r -> result_buf n r2 ->
  exp_scratch n s1 -> exp_scratch n s2 ->
  yields (let! '(e1, x, _, _) := ct_exp_mod_odd_mp_mp r m n e ke s1 in
          let! '(e2, y, _, _) := ct_exp_mod_odd_mp_mp r2 x n d kd s2 in ret (e1, e2, y))
    (fun '(e1, e2, y) => e1 = Ok tt /\ e2 = Ok tt /\ becomes r2 y (mpval m)).
Proof. exact @rsa_round_trip. Qed.
Print Assumptions C50_rsa_round_trip_partial.
(** For any such modulus, if neither of the exponentiations loses a carry. *)
Theorem C50_rsa_round_trip_any : forall (c : cfg) p q n m e ke d kd r r2 s1 s2, prime p -> prime q -> p <> q -> mpval n = p * q -> exp_modulus_any n ->
  (p - 1 | expo e ke * expo d kd - 1) -> (q - 1 | expo e ke * expo d kd - 1) -> 0 < expo e ke * expo d kd ->
  residue_buf n m -> mpval m < mpval n -> mp_ok e -> 0 <= ke -> mp_ok d -> 0 <= kd -> result_buf n r -> result_buf n r2 ->
  exp_scratch n s1 -> exp_scratch n s2 -> exp_fine n (mpval m) e ke -> exp_fine n (mpval m ^ expo e ke mod mpval n) d kd ->
  yields (let! '(e1, x, _, _) := ct_exp_mod_odd_mp_mp r m n e ke s1 in
          let! '(e2, y, _, _) := ct_exp_mod_odd_mp_mp r2 x n d kd s2 in ret (e1, e2, y))
    (fun '(e1, e2, y) => e1 = Ok tt /\ e2 = Ok tt /\ becomes r2 y (mpval m)).
Proof. exact @rsa_round_trip_any. Qed.
Print Assumptions C50_rsa_round_trip_any.

(** ** C51: inverses *)

(** The inverse of the inverse is the number itself, reduced. Missing: the moduli for which C34 is refuted. *)
Theorem C51_inverse_twice_partial : forall (c : cfg) n x r r2 s0 s1 t0 t1, mp_ok n -> mp_ok x -> mp_ok r2 ->
  Z.odd (mpval n) = true -> 1 < mpval n -> mpval n <= B ^ (nlimbs n - 1) ->
  gcd_len_ok (LB * nlimbs n) -> residue_buf n r -> mut_compat x n -> len_compat n (mp_len r2) ->
  mp_ok (NE s0) -> mp_ok (NE s1) -> nlimbs n <= zlen s0 -> nlimbs n <= zlen s1 ->
  mp_ok (NE t0) -> mp_ok (NE t1) -> nlimbs n <= zlen t0 -> nlimbs n <= zlen t1 -> Z.gcd (mpval n) (mpval x) = 1 ->
  yields (let! '(e1, y, _, _, _) := ct_inv_mod_odd_mp_mp r x n s0 s1 in
          let! '(e2, z, _, _, _) := ct_inv_mod_odd_mp_mp r2 y n t0 t1 in ret (e1, e2, z))
    (fun '(e1, e2, z) => e1 = Ok tt /\ e2 = Ok tt /\ becomes r2 z (mpval x mod mpval n)).
Proof. exact @inverse_twice. Qed.
Print Assumptions C51_inverse_twice_partial.
(** Modulo a prime, inversion and exponentiation by n - 2 agree. *)
Theorem C51_inverse_fermat_partial : forall (c : cfg) n x e k r r2 x2 s s0 s1, prime (mpval n) -> exp_modulus n -> mpval n <= B ^ (nlimbs n - 1) ->
  gcd_len_ok (LB * nlimbs n) -> residue_buf n x -> residue_buf n x2 -> mpval x2 = mpval x -> 0 < mpval x < mpval n ->
  mp_ok e -> 0 <= k -> expo e k = mpval n - 2 -> result_buf n r -> residue_buf n r2 -> exp_scratch n s ->
  mp_ok (NE s0) -> mp_ok (NE s1) -> nlimbs n <= zlen s0 -> nlimbs n <= zlen s1 ->
  yields (let! '(e1, y, _, _) := ct_exp_mod_odd_mp_mp r x n e k s in
          let! '(e2, z, _, _, _) := ct_inv_mod_odd_mp_mp r2 x2 n s0 s1 in ret (e1, e2, y, z))
    (fun '(e1, e2, y, z) => e1 = Ok tt /\ e2 = Ok tt /\ mpval y = mpval z /\ is_inverse (mpval n) (mpval x) (mpval z)).
Proof. exact @inverse_fermat. Qed.
Print Assumptions C51_inverse_fermat_partial.

(** Both for any odd modulus, the residues computed in the inversions fitting its buffer (C34) and no carry lost in the
    exponentiation (C32). *)
Theorem C51_inverse_twice_any_partial : forall (c : cfg) n x r r2 s0 s1 t0 t1, mp_ok n -> mp_ok x -> mp_ok r2 ->
  Z.odd (mpval n) = true -> 1 < mpval n ->
  residues_fit (mpval n) (nlimbs n - 1) (mpval x) -> (forall v, is_inverse (mpval n) (mpval x) v -> residues_fit (mpval n) (nlimbs n - 1) v) ->
  gcd_len_ok (LB * nlimbs n) -> residue_buf n r -> mut_compat x n -> len_compat n (mp_len r2) ->
  mp_ok (NE s0) -> mp_ok (NE s1) -> nlimbs n <= zlen s0 -> nlimbs n <= zlen s1 ->
  mp_ok (NE t0) -> mp_ok (NE t1) -> nlimbs n <= zlen t0 -> nlimbs n <= zlen t1 -> Z.gcd (mpval n) (mpval x) = 1 ->
  yields (let! '(e1, y, _, _, _) := ct_inv_mod_odd_mp_mp r x n s0 s1 in
          let! '(e2, z, _, _, _) := ct_inv_mod_odd_mp_mp r2 y n t0 t1 in ret (e1, e2, z))
    (fun '(e1, e2, z) => e1 = Ok tt /\ e2 = Ok tt /\ becomes r2 z (mpval x mod mpval n)).
Proof. exact @inverse_twice_any. Qed.
Print Assumptions C51_inverse_twice_any_partial.
Theorem C51_inverse_fermat_any_partial : forall (c : cfg) n x e k r r2 x2 s s0 s1, prime (mpval n) -> exp_modulus_any n -> exp_fine n (mpval x) e k ->
  residues_fit (mpval n) (nlimbs n - 1) (mpval x) -> gcd_len_ok (LB * nlimbs n) ->
  residue_buf n x -> residue_buf n x2 -> mpval x2 = mpval x -> 0 < mpval x < mpval n ->
  mp_ok e -> 0 <= k -> expo e k = mpval n - 2 -> result_buf n r -> residue_buf n r2 -> exp_scratch n s ->
  mp_ok (NE s0) -> mp_ok (NE s1) -> nlimbs n <= zlen s0 -> nlimbs n <= zlen s1 ->
  yields (let! '(e1, y, _, _) := ct_exp_mod_odd_mp_mp r x n e k s in
          let! '(e2, z, _, _, _) := ct_inv_mod_odd_mp_mp r2 x2 n s0 s1 in ret (e1, e2, y, z))
    (fun '(e1, e2, y, z) => e1 = Ok tt /\ e2 = Ok tt /\ mpval y = mpval z /\ is_inverse (mpval n) (mpval x) (mpval z)).
Proof. exact @inverse_fermat_any. Qed.
Print Assumptions C51_inverse_fermat_any_partial.

(** ** C52: greatest common divisor times least common multiple *)

(** [x] and [y] are copies of [a] and [b]. This includes zeros. Missing: the buffers for which C37 is refuted. *)
Theorem C52_gcd_lcm_partial : forall (c : cfg) a b x l0 y l1 res scr, mp_ok a -> mp_ok b -> mp_ok x -> mp_ok y -> mp_ok res -> mp_ok scr ->
  mpval x = mpval a -> mpval y = mpval b -> 0 < mp_len a -> mut_compat a b -> gcd_len_ok (Z.max (mp_len a) (mp_len b)) ->
  kind_of scr = kind_of y -> mp_len x = mp_len y -> gcd_len_ok (mp_len x) -> 0 < l0 <= mp_len x -> 0 < l1 <= mp_len y ->
  mpval x < 256 ^ l0 -> mpval y < 256 ^ l1 -> l0 + l1 <= mp_len res -> l0 + l1 <= mp_len scr ->
  (kind_of y = KNE -> (l0 + l1) mod LB = 0 /\ l0 + l1 + (ct_mp_limbs_align_len (Z.max l0 l1) - Z.max l0 l1) <= mp_len res) ->
  yields (let! '(r1, g, _) := ct_gcd_mp_mp a b in let! '(r2, m, _, _, _) := ct_lcm_mp_mp res x l0 y l1 scr in
          let! p := ct_mul_trunc_mp_mp m (l0 + l1) g in ret (r1, r2, p))
    (fun '(r1, r2, p) => r1 = Ok tt /\ r2 = Ok tt /\ becomes res p (mpval a * mpval b)).
Proof. exact @gcd_lcm_product. Qed.
Print Assumptions C52_gcd_lcm_partial.

(** ** Concrete cases meeting the hypotheses *)
Ltac okmp := split; [repeat constructor; vm_compute; congruence|vm_compute; reflexivity].

Example ex_app_arith : let c := mkcfg false false true true in
  let a := LE [200; 1; 2; 0; 0; 0] in let b := BE [255; 3; 9] in let q := NE [7; 7] in let w := LE [0; 0; 0; 0; 0; 0; 0; 0] in
  mp_ok a /\ mp_ok b /\ mp_ok q /\ mp_ok w /\ nlimbs b <= nlimbs a /\ mpval b < 256 ^ mp_len a /\ mpval a * 2 ^ 20 < 256 ^ mp_len a /\
  mpval a < 256 ^ 3 /\ 3 + mp_len b <= mp_len a /\ byte_len (mpval b) 3 /\ mp_len a <= mp_len q + 3 /\ mpval a < 256 ^ mp_len q /\
  mp_len a <= mp_len w /\ mp_len q <= mp_len w /\ mpval w = 0 /\ mpval a <> 0.
Proof.
  cbv zeta. split; [okmp|]. split; [okmp|]. split; [okmp|]. split; [okmp|].
  repeat split; vm_compute; congruence.
Qed.

(** Small primes, by trial. *)
Lemma prime_check : forall p, 1 < p -> Forall (fun k => Z.gcd k p = 1) (map Z.of_nat (seq 1 (Z.to_nat (p - 1)))) -> prime p.
Proof.
  intros p Hp HF. apply prime_intro; [auto|]. intros k Hk. apply Zgcd_1_rel_prime. rewrite Forall_forall in HF. apply HF. apply in_map_iff.
  exists (Z.to_nat k). split; [lia|]. apply in_seq. lia.
Qed.
Lemma prime_257 : prime 257.
Proof. apply prime_check; [lia|]. vm_compute. repeat constructor. Qed.
Lemma prime_263 : prime 263.
Proof. apply prime_check; [lia|]. vm_compute. repeat constructor. Qed.

(** The modulus 257 * 263 in five bytes, i.e. two limbs of 32 bits, and the exponents 3 and 11179, 3 * 11179 being 1 modulo
    lcm(256, 262) = 33536. *)
Example ex_app_rsa : let c := mkcfg false false true true in
  let n := BE [0; 0; 1; 8; 7] in let m := LE [0xef; 0xbe; 0; 0; 0] in let r := BE [1; 2; 3; 4; 5] in let s := [1; 2; 3] in
  let e := BE [3] in let d := BE [0x2b; 0xab] in
  mpval n = 257 * 263 /\ exp_modulus n /\ residue_buf n m /\ mpval m < mpval n /\ mp_ok e /\ mp_ok d /\ result_buf n r /\ exp_scratch n s /\
  (257 - 1 | expo e 8 * expo d 16 - 1) /\ (263 - 1 | expo e 8 * expo d 16 - 1) /\ 0 < expo e 8 * expo d 16.
Proof.
  cbv zeta. split; [vm_compute; reflexivity|].
  split. { split; [okmp|]. split; [vm_compute; reflexivity|]. split; [vm_compute; congruence|]. split; vm_compute; congruence. }
  split. { split; [okmp|left; vm_compute; reflexivity]. }
  split; [vm_compute; reflexivity|]. split; [okmp|]. split; [okmp|].
  split. { split; [split; [okmp|left; vm_compute; reflexivity]|]. left. split; [vm_compute; congruence|intros E; discriminate E]. }
  split. { split; [okmp|]. split; [vm_compute; congruence|]. right. vm_compute. congruence. }
  split; [exists 131; vm_compute; reflexivity|]. split; [exists 128; vm_compute; reflexivity|vm_compute; reflexivity].
Qed.
(** The modulus 2^64 - 59, which may lose carries, the generator 3 and the secrets 5 and 6. *)
Example ex_app_dh_any : let c := mkcfg false false true false in
  let n := NE [2 ^ 32 - 59; 2 ^ 32 - 1] in let g := NE [3; 0] in let r := NE [1; 2] in let s := [1; 2] in let a := BE [5] in let b := LE [6] in
  exp_modulus_any n /\ ~ mg_carry_ok n /\ residue_buf n g /\ mpval g < mpval n /\ mp_ok a /\ mp_ok b /\ result_buf n r /\ exp_scratch n s /\
  exp_fine n (mpval g) a 3 /\ exp_fine n (mpval g) b 3 /\ exp_fine n (mpval g ^ expo b 3 mod mpval n) a 3 /\ exp_fine n (mpval g ^ expo a 3 mod mpval n) b 3.
Proof.
  cbv zeta.
  split. { split; [okmp|]. split; [vm_compute; reflexivity|]. split; vm_compute; congruence. }
  split; [intros X; vm_compute in X; congruence|]. split. { split; [okmp|left; reflexivity]. }
  split; [vm_compute; reflexivity|]. split; [okmp|]. split; [okmp|].
  split. { split; [split; [okmp|left; reflexivity]|]. left. split; [vm_compute; congruence|intros _; vm_compute; reflexivity]. }
  split. { split; [okmp|]. split; [vm_compute; congruence|]. left. split; [vm_compute; congruence|intros _; vm_compute; reflexivity]. }
  assert (G : forall x e, 0 <= x -> fine_chk (c := mkcfg false false true false) (2 ^ 64 - 59) (2 ^ 64) x (mpval (c := mkcfg false false true false) e mod 2 ^ 3) 1 3 = true -> exp_fine (c := mkcfg false false true false) (NE [2 ^ 32 - 59; 2 ^ 32 - 1]) x e 3).
  { intros x e Hx H. split; [apply carry_ok_fine; auto; vm_compute; congruence|]. apply (fine_chk_sound _ _ _ _ 3 1); [vm_compute; reflexivity|apply Z.mod_pos_bound; lia| |exact H].
    rewrite Z.div_small by (apply Z.mod_pos_bound; lia). vm_compute. reflexivity. }
  split; [|split; [|split]]; (apply G; [vm_compute; congruence|vm_compute; reflexivity]).
Qed.
(** The modulus 263 in five bytes, inversion of 100. *)
Example ex_app_inv : let c := mkcfg false false true true in
  let n := BE [0; 0; 0; 1; 7] in let x := LE [100; 0; 0; 0; 0] in let r := BE [1; 2; 3; 4; 5] in let s := [1; 2; 3] in let e := BE [1; 5] in
  prime (mpval n) /\ exp_modulus n /\ mpval n <= B ^ (nlimbs n - 1) /\ gcd_len_ok (LB * nlimbs n) /\ residue_buf n x /\ mut_compat x n /\
  0 < mpval x < mpval n /\ mp_ok e /\ expo e 9 = mpval n - 2 /\ result_buf n r /\ len_compat n (mp_len r) /\ exp_scratch n s /\ nlimbs n <= zlen s /\
  Z.gcd (mpval n) (mpval x) = 1.
Proof.
  cbv zeta. split; [exact prime_263|].
  split. { split; [okmp|]. split; [vm_compute; reflexivity|]. split; [vm_compute; congruence|]. split; vm_compute; congruence. }
  split; [vm_compute; congruence|]. split; [vm_compute; reflexivity|]. split. { split; [okmp|left; vm_compute; reflexivity]. }
  split. { split; left; vm_compute; congruence. }
  split; [split; vm_compute; reflexivity|]. split; [okmp|]. split; [vm_compute; reflexivity|].
  split. { split; [split; [okmp|left; vm_compute; reflexivity]|]. left. split; [vm_compute; congruence|intros E; discriminate E]. }
  split; [left; vm_compute; congruence|].
  split. { split; [okmp|]. split; [vm_compute; congruence|]. right. vm_compute. congruence. }
  split; [vm_compute; congruence|vm_compute; reflexivity].
Qed.
(** Operands of four bytes, 90 and 12. *)
Example ex_app_gcd : let c := mkcfg false false true true in
  let a := BE [0; 0; 0; 90] in let b := LE [12; 0; 0; 0] in let res := NE [7; 7] in let scr := LE [1; 2; 3; 4; 5; 6; 7; 8] in
  mp_ok a /\ mp_ok b /\ mp_ok res /\ mp_ok scr /\ 0 < mp_len a /\ mut_compat a b /\ gcd_len_ok (Z.max (mp_len a) (mp_len b)) /\ kind_of scr = kind_of b /\
  mp_len a = mp_len b /\ gcd_len_ok (mp_len a) /\ mpval a < 256 ^ 4 /\ mpval b < 256 ^ 4 /\ 4 + 4 <= mp_len res /\ 4 + 4 <= mp_len scr /\ kind_of b <> KNE.
Proof.
  cbv zeta. split; [okmp|]. split; [okmp|]. split; [okmp|]. split; [okmp|]. split; [vm_compute; reflexivity|]. split; [split; left; vm_compute; congruence|].
  repeat split; vm_compute; congruence.
Qed.
