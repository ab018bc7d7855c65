(** Programs calling the library, for the theorems about sequences of calls: RSA by the Chinese remainder theorem, signatures. *)
From Coq Require Import ZArith Znumtheory List.
Require Import Verif.Spec Verif.Monad Verif.ModelLimb Verif.ModelBuf Verif.ModelCmp Verif.ModelAdd Verif.ModelMul Verif.ModelDiv Verif.ModelMont Verif.ModelEuclid
  Verif.SpecBuf Verif.SpecDiv Verif.SpecMont Verif.SpecEuclid Verif.SpecSteps Verif.SpecApp Verif.SpecApp2.
Import ListNotations.
Open Scope Z_scope.

Section Programs.
Context {c : cfg}.

(** The number with the high part [u_h] and the low part [u_l], reduced modulo [n] in place. What comes back is the low part. *)
Definition reduce (u_h : option mp) (u_l n : mp) : M mp :=
  let! d := mp_divisor_new n None in
  let! d := unwrap d in
  let! '(_, r) := ct_mod_mp_mp u_h u_l d in
  ret r.

(** The product of [x] and [y] modulo the odd number [n]: a copy of [x] is brought to Montgomery form, so that the Montgomery product
    with [y] is the product. [b] is a buffer, of which one copy is used for each of the two. *)
Definition mul_mod (b x y n : mp) : M mp :=
  let! t := copy_from b x in
  let! '(e, t) := ct_to_montgomery_form_direct_mp t n in
  unwrap e ;;
  let! g := ct_montgomery_neg_n0_inv_mod_l_mp n in
  let! g := unwrap g in
  let! '(e, r) := ct_montgomery_mul_mod_mp_mp b t y n g in
  unwrap e ;;
  ret r.

(** RSA decryption by the Chinese remainder theorem (RFC 8017, 5.1.2). The ciphertext is given twice, each time in two parts the lower of
    which has the length of the respective prime; [dp] and [dq] are the private exponents, of [kp] and [kq] bits, [qinv] the inverse of
    [q] modulo [p]. The remaining arguments are buffers. *)
Definition rsa_crt (p q dp : mp) (kp : Z) (dq : mp) (kq : Z) (qinv : mp) (xph : option mp) (xpl : mp) (xqh : option mp) (xql : mp)
  (rp rq out : mp) (s1 s2 : list Z) : M mp :=
  let! xp := reduce xph xpl p in
  let! xq := reduce xqh xql q in
  let! '(e, m1, _, _) := ct_exp_mod_odd_mp_mp rp xp p dp kp s1 in
  unwrap e ;;
  let! '(e, m2, _, _) := ct_exp_mod_odd_mp_mp rq xq q dq kq s2 in
  unwrap e ;;
  let! '(h, e) := ct_sub_mod_mp_mp m1 m2 p in
  unwrap e ;;
  let! h := mul_mod rp h qinv p in
  let! m := copy_from out h in
  let! m := ct_mul_trunc_mp_mp m (mp_len p) q in
  let! '(m, _) := ct_add_mp_mp m m2 in
  ret m.

(** The inverse of [x] modulo the odd number [q], computed from a copy. *)
Definition inverse (b x q : mp) (s : list Z) : M mp :=
  let! t := copy_from b x in
  let! '(e, r, _, _, _) := ct_inv_mod_odd_mp_mp b t q s s in
  unwrap e ;;
  ret r.

(** The power [x]^[k] modulo the odd number [n], computed from a copy. *)
Definition power (b x n k : mp) (s : list Z) : M mp :=
  let! t := copy_from b x in
  let! '(e, r, _, _) := ct_exp_mod_odd_mp_mp b t n k (8 * mp_len k) s in
  unwrap e ;;
  ret r.
(** [x] modulo [q], moved to the buffer [b]. *)
Definition reduce_into (b x q : mp) : M mp :=
  let! r := reduce None x q in
  copy_from b r.

(** The digital signature algorithm (FIPS 186-4, 4.6 and 4.7) with the prime [p] and [g] of order [q]: signing the hash [z] with the
    private key [x] and the secret [k], and verification with the public key [y]. [bp] and [bq] are buffers for residues modulo [p] and
    [q], of which copies are used, [sp] and [sq] scratch space. *)
Definition dsa_sign (p q g x k z bp bq : mp) (sp sq : list Z) : M (mp * mp) :=
  let! v := power bp g p k sp in
  let! r := reduce_into bq v q in
  let! w := inverse bq k q sq in
  let! t := mul_mod bq x r q in
  let! '(t, e) := ct_add_mod_mp_mp t z q in
  unwrap e ;;
  let! s := mul_mod bq t w q in
  ret (r, s).
Definition dsa_verify (p q g y z r s bp bq : mp) (sp sq : list Z) : M bool :=
  let! w := inverse bq s q sq in
  let! u1 := mul_mod bq z w q in
  let! u2 := mul_mod bq r w q in
  let! v1 := power bp g p u1 sp in
  let! v2 := power bp y p u2 sp in
  let! v := mul_mod bp v1 v2 p in
  let! v := reduce_into bq v q in
  let! ok := ct_eq_mp_mp v r in
  ret (negb (lc_unwrap ok =? 0)).

(** What the theorems ask of the arguments. [x] in two parts, the lower one of the length of [n]. *)
Definition two_parts (n : mp) (u_h : option mp) (u_l : mp) (x : Z) : Prop := u_ok u_h u_l /\ residue_buf n u_l /\ uval u_h u_l = x.
Definition crt_key (p q dp : mp) (kp : Z) (dq : mp) (kq : Z) (qinv : mp) : Prop :=
  prime (mpval p) /\ prime (mpval q) /\ mpval q < mpval p /\ mp_ok dp /\ 0 <= kp /\ mp_ok dq /\ 0 <= kq /\
  residue_buf p qinv /\ is_inverse (mpval p) (mpval q) (mpval qinv).
Definition crt_buffers (p q rp rq out : mp) (s1 s2 : list Z) : Prop :=
  result_buf p rp /\ result_buf q rq /\ mp_ok out /\ mp_len p + mp_len q <= mp_len out /\ exp_scratch p s1 /\ exp_scratch q s2.
(** [dp] and [dq] stand for the exponent [d]. *)
Definition crt_exponent (p q dp : mp) (kp : Z) (dq : mp) (kq d : Z) : Prop :=
  0 < d /\ 0 < expo dp kp /\ 0 < expo dq kq /\ (mpval p - 1 | d - expo dp kp) /\ (mpval q - 1 | d - expo dq kq).
(** The group: [g] is a residue modulo [p]. The most significant limb of [q] is unused, see C34. *)
Definition dsa_group (p q g : mp) : Prop :=
  exp_modulus p /\ exp_modulus q /\ mpval q <= B ^ (nlimbs q - 1) /\ gcd_len_ok (LB * nlimbs q) /\ 1 < mpval q < mpval p /\ mp_ok g /\ mpval g < mpval p.
Definition dsa_buffers (p q bp bq : mp) (sp sq : list Z) : Prop :=
  result_buf p bp /\ result_buf q bq /\ exp_scratch p sp /\ mp_ok (NE sq) /\ nlimbs q <= zlen sq.
(** The same without any demand on [p] and [q] but two limbs each. *)
Definition dsa_group_any (p q g : mp) : Prop :=
  exp_modulus_any p /\ exp_modulus_any q /\ gcd_len_ok (LB * nlimbs q) /\ 1 < mpval q < mpval p /\ mp_ok g /\ mpval g < mpval p.
(** No carry gets lost in raising [x] to the power [e] of [k] bits, as [exp_fine] in SpecApp.v. *)
Definition pow_fine (n : mp) (x e k : Z) : Prop := mg_fine n x ((mg_radix n * mg_radix n) mod mpval n) /\ mg_exp_fine n x e k.
(** No carry gets lost in multiplying [x] by [y], and [x] can be inverted (C30, C34). *)
Definition mul_fine (n : mp) (x y : Z) : Prop := mg_fine n (mg_form n x) y.
Definition inv_fine (n : mp) (x : Z) : Prop := residues_fit (mpval n) (nlimbs n - 1) x.
(** Nothing goes wrong in signing, with [w] the inverse of [k] and [r] the first part of the signature, and in verifying, with [w] the
    inverse of [s]; [l] is the length of the buffers modulo [q]. *)
Definition sign_fine (p q g x k z : mp) (r w : Z) : Prop :=
  pow_fine p (mpval g) (mpval k) (8 * mp_len k) /\ inv_fine q (mpval k) /\ mul_fine q (mpval x) r /\ mul_fine q ((mpval x * r + mpval z) mod mpval q) w.
Definition verify_fine (p q g y z r s : mp) (w l : Z) : Prop :=
  let u1 := (mpval z * w) mod mpval q in let u2 := (mpval r * w) mod mpval q in
  inv_fine q (mpval s) /\ mul_fine q (mpval z) w /\ mul_fine q (mpval r) w /\ pow_fine p (mpval g) u1 (8 * l) /\ pow_fine p (mpval y) u2 (8 * l) /\
  mul_fine p (mpval g ^ u1 mod mpval p) (mpval y ^ u2 mod mpval p).
(** [x] is a residue modulo [n]. *)
Definition below (n x : mp) : Prop := mp_ok x /\ mpval x < mpval n.
End Programs.
