(** Theorems about inversion modulo arbitrary numbers: property C36.

    [is_inverse n x v] (SpecEuclid.v) says that v is the number below n with x * v = 1 modulo n; [scratch_ok n s] (SpecInv.v)
    that s is a slice of limbs as long as n. The modulus is written as m * 2^e with m odd.

    Two defects restrict the positive theorems. The one of C34 asks the odd part m to leave the most significant limb of
    the modulus' buffer unused or the residues computed on the way to fit it, the one of C23 (see C35) asks for [liftable] operands: the inverses modulo 2, 4, 16, 256,
    ... must not have limbs whose products run into it. Operands of at most two limbs always are liftable. *)
From Coq Require Import ZArith List Bool Lia.
Require Import Verif.Spec Verif.Monad Verif.ModelLimb Verif.ModelBuf Verif.SpecBuf Verif.SpecMont Verif.SpecEuclid Verif.SpecSteps Verif.SpecInv Verif.ModelInv Verif.InvAnyProofs Verif.FitCheck Verif.InvFacts Verif.InvAnyExact.
Import ListNotations.
Open Scope Z_scope.

Ltac okmp := split; [repeat constructor; vm_compute; congruence|vm_compute; reflexivity].

(** ** C36: modular inverse, any modulus *)

(** The operand coprime to the modulus: it is replaced by its inverse, the modulus is left as it was. *)
Theorem C36_inv_any_partial : forall (c : cfg) op0 n s0 s1 s2 s3 m e, mp_ok op0 -> mp_ok n -> mut_compat op0 n ->
  scratch_ok n s0 -> scratch_ok n s1 -> scratch_ok n s2 -> scratch_ok n s3 -> gcd_len_ok (LB * nlimbs n) ->
  mpval n = m * 2 ^ e -> Z.odd m = true -> 0 <= e ->
  m <= B ^ (nlimbs n - 1) -> liftable (mpval op0) (8 * mp_len n - 1) -> liftable m (8 * mp_len n - 1) ->
  1 < mpval n -> Z.gcd (mpval n) (mpval op0) = 1 ->
  yields (ct_inv_mod_mp_mp op0 n (s0, s1, s2, s3)) (fun '(res, op0', n') =>
    res = Ok tt /\ is_inverse (mpval n) (mpval op0) (mpval op0') /\ becomes op0 op0' (mpval op0') /\ becomes n n' (mpval n)).
Proof. exact @inv_any_correct. Qed.
Print Assumptions C36_inv_any_partial.

(** The same for any odd part [m], the residues computed when inverting modulo [m] fitting the buffer (C34). *)
Theorem C36_inv_any_fits_partial : forall (c : cfg) op0 n s0 s1 s2 s3 m e, mp_ok op0 -> mp_ok n -> mut_compat op0 n ->
  scratch_ok n s0 -> scratch_ok n s1 -> scratch_ok n s2 -> scratch_ok n s3 -> gcd_len_ok (LB * nlimbs n) ->
  mpval n = m * 2 ^ e -> Z.odd m = true -> 0 <= e ->
  residues_fit m (nlimbs n - 1) (mpval op0) -> liftable (mpval op0) (8 * mp_len n - 1) -> liftable m (8 * mp_len n - 1) ->
  1 < mpval n -> Z.gcd (mpval n) (mpval op0) = 1 ->
  yields (ct_inv_mod_mp_mp op0 n (s0, s1, s2, s3)) (fun '(res, op0', n') =>
    res = Ok tt /\ is_inverse (mpval n) (mpval op0) (mpval op0') /\ becomes op0 op0' (mpval op0') /\ becomes n n' (mpval n)).
Proof. exact @inv_any_fits. Qed.
Print Assumptions C36_inv_any_fits_partial.

(** The same for moduli of at most two limbs. *)
Theorem C36_inv_any_two_limbs_partial : forall (c : cfg) op0 n s0 s1 s2 s3 m e, mp_ok op0 -> mp_ok n -> mut_compat op0 n ->
  scratch_ok n s0 -> scratch_ok n s1 -> scratch_ok n s2 -> scratch_ok n s3 -> nlimbs n <= 2 ->
  mpval n = m * 2 ^ e -> Z.odd m = true -> 0 <= e -> m <= B ^ (nlimbs n - 1) ->
  1 < mpval n -> Z.gcd (mpval n) (mpval op0) = 1 ->
  yields (ct_inv_mod_mp_mp op0 n (s0, s1, s2, s3)) (fun '(res, op0', n') =>
    res = Ok tt /\ is_inverse (mpval n) (mpval op0) (mpval op0') /\ becomes op0 op0' (mpval op0') /\ becomes n n' (mpval n)).
Proof. exact @inv_any_two_limbs. Qed.
Print Assumptions C36_inv_any_two_limbs_partial.

Theorem C36_inv_any_two_limbs_fits_partial : forall (c : cfg) op0 n s0 s1 s2 s3 m e, mp_ok op0 -> mp_ok n -> mut_compat op0 n ->
  scratch_ok n s0 -> scratch_ok n s1 -> scratch_ok n s2 -> scratch_ok n s3 -> nlimbs n <= 2 ->
  mpval n = m * 2 ^ e -> Z.odd m = true -> 0 <= e -> residues_fit m (nlimbs n - 1) (mpval op0) ->
  1 < mpval n -> Z.gcd (mpval n) (mpval op0) = 1 ->
  yields (ct_inv_mod_mp_mp op0 n (s0, s1, s2, s3)) (fun '(res, op0', n') =>
    res = Ok tt /\ is_inverse (mpval n) (mpval op0) (mpval op0') /\ becomes op0 op0' (mpval op0') /\ becomes n n' (mpval n)).
Proof. exact @inv_any_two_limbs_fits. Qed.
Print Assumptions C36_inv_any_two_limbs_fits_partial.

(** The operand not coprime to the modulus, one of them being odd. No spare limb is needed. *)
Theorem C36_inv_any_not_coprime_partial : forall (c : cfg) op0 n s0 s1 s2 s3, mp_ok op0 -> mp_ok n -> mut_compat op0 n ->
  scratch_ok n s0 -> scratch_ok n s1 -> scratch_ok n s2 -> scratch_ok n s3 -> gcd_len_ok (LB * nlimbs n) ->
  liftable (mpval op0) (8 * mp_len n - 1) ->
  0 < mpval n -> Z.odd (mpval n) = true \/ Z.odd (mpval op0) = true -> Z.gcd (mpval n) (mpval op0) <> 1 ->
  yields (ct_inv_mod_mp_mp op0 n (s0, s1, s2, s3)) (fun '(res, op0', n') =>
    res = Err ImOperandsNotCoprime /\ becomes op0 op0' 0 /\ becomes n n' (mpval n)).
Proof. exact @inv_any_not_coprime. Qed.
Print Assumptions C36_inv_any_not_coprime_partial.

(** The modulus one: there is no inverse below it other than zero, which counts as an error. *)
Theorem C36_inv_any_one_partial : forall (c : cfg) op0 n s0 s1 s2 s3, mp_ok op0 -> mp_ok n -> mut_compat op0 n ->
  scratch_ok n s0 -> scratch_ok n s1 -> scratch_ok n s2 -> scratch_ok n s3 -> gcd_len_ok (LB * nlimbs n) ->
  liftable (mpval op0) (8 * mp_len n - 1) -> mpval n = 1 ->
  yields (ct_inv_mod_mp_mp op0 n (s0, s1, s2, s3)) (fun '(res, op0', n') =>
    res = Err ImOperandsNotCoprime /\ becomes op0 op0' 0 /\ becomes n n' 1).
Proof. exact @inv_any_one. Qed.
Print Assumptions C36_inv_any_one_partial.

(** The remaining errors, among them both operands even, in the order they are checked in; everything remains untouched. *)
Theorem C36_inv_any_errors : forall (c : cfg) op0 n s0 s1 s2 s3, mp_ok op0 -> mp_ok n ->
  (mp_len n = 0 -> returns (ct_inv_mod_mp_mp op0 n (s0, s1, s2, s3)) (Err ImInvalidModulus, op0, n)) /\
  (0 < mp_len n -> ~ len_compat n (mp_len op0) -> returns (ct_inv_mod_mp_mp op0 n (s0, s1, s2, s3)) (Err ImInsufficientResultSpace, op0, n)) /\
  (0 < mp_len n -> len_compat n (mp_len op0) -> ~ len_compat op0 (mp_len n) ->
     returns (ct_inv_mod_mp_mp op0 n (s0, s1, s2, s3)) (Err ImInconsistentOperandLengths, op0, n)) /\
  (0 < mp_len n -> mut_compat op0 n -> Z.odd (mpval n) = false -> Z.odd (mpval op0) = false ->
     returns (ct_inv_mod_mp_mp op0 n (s0, s1, s2, s3)) (Err ImOperandsNotCoprime, op0, n)) /\
  (0 < mp_len n -> mut_compat op0 n -> Z.odd (mpval n) = true \/ Z.odd (mpval op0) = true ->
     zlen s0 < nlimbs n \/ zlen s1 < nlimbs n \/ zlen s2 < nlimbs n \/ zlen s3 < nlimbs n ->
     returns (ct_inv_mod_mp_mp op0 n (s0, s1, s2, s3)) (Err ImInsufficientScratchSpace, op0, n)) /\
  (0 < mp_len n -> mut_compat op0 n -> Z.odd (mpval op0) = true -> mpval n = 0 ->
     scratch_ok n s0 -> scratch_ok n s1 -> scratch_ok n s2 -> scratch_ok n s3 ->
     returns (ct_inv_mod_mp_mp op0 n (s0, s1, s2, s3)) (Err ImInvalidModulus, op0, n)).
Proof. exact @inv_any_errors. Qed.
Print Assumptions C36_inv_any_errors.

(** Without any condition on the odd part, this is what is returned: the number which is inverse to the operand modulo the power of
    two, whereas modulo the odd part it is what C34_inv_odd_exact says about inversion modulo that. It is right exactly if the latter is. *)
Theorem C36_inv_any_exact : forall (c : cfg) op0 n s0 s1 s2 s3 m e k d f, mp_ok op0 -> mp_ok n -> mut_compat op0 n ->
  scratch_ok n s0 -> scratch_ok n s1 -> scratch_ok n s2 -> scratch_ok n s3 -> gcd_len_ok (LB * nlimbs n) ->
  mpval n = m * 2 ^ e -> Z.odd m = true -> 0 <= e -> 1 < m ->
  liftable (mpval op0) (8 * mp_len n - 1) -> liftable m (8 * mp_len n - 1) -> Z.gcd (mpval n) (mpval op0) = 1 ->
  batches k (1, m, mpval op0) = (d, f, 0) ->
  let r := fst (residues m (nlimbs n - 1) (mpval op0) k) in
  let v := if f <? 0 then m - r else r in
  (r = 0 -> debug c = true \/ e = 0 /\ f < 0 -> panics (ct_inv_mod_mp_mp op0 n (s0, s1, s2, s3))) /\
  (r <> 0 \/ debug c = false /\ (0 < e \/ 0 <= f) -> yields (ct_inv_mod_mp_mp op0 n (s0, s1, s2, s3)) (fun '(res, op0', n') => exists w,
    becomes op0 op0' w /\ becomes n n' (mpval n) /\ res = (if w =? 0 then Err ImOperandsNotCoprime else Ok tt) /\
    0 <= w < mpval n /\ w mod m = v mod m /\ (mpval op0 * w) mod 2 ^ e = 1 mod 2 ^ e /\
    (is_inverse (mpval n) (mpval op0) w <-> (mpval op0 * v) mod m = 1))).
Proof. exact @inv_any_exact. Qed.
Print Assumptions C36_inv_any_exact.

(** In particular, numbers which aren't inverses are returned for the primes of widely used curves in buffers they fill. *)
Theorem C36_inv_any_curves_refuted : forall (c : cfg) op0 n s0 s1 s2 s3, mp_ok op0 -> mp_ok n -> mut_compat op0 n ->
  scratch_ok n s0 -> scratch_ok n s1 -> scratch_ok n s2 -> scratch_ok n s3 ->
  In (W * nlimbs n, mpval n, mpval op0) (wrong_inverses (limb64 c)) ->
  Z.gcd (mpval n) (mpval op0) = 1 /\
  yields (ct_inv_mod_mp_mp op0 n (s0, s1, s2, s3)) (fun '(res, op0', _) => res = Ok tt /\ ~ is_inverse (mpval n) (mpval op0) (mpval op0')).
Proof. exact @inv_any_curves_wrong. Qed.
Print Assumptions C36_inv_any_curves_refuted.

(** Without the spare limb a number which isn't the inverse may be returned as such, see C34. *)
Theorem C36_inv_any_refuted : forall (c : cfg), asm_math c = false -> usize64 c = true ->
  exists op0 n s v, mp_ok op0 /\ mp_ok n /\ mut_compat op0 n /\ scratch_ok n s /\ 1 < mpval n /\ Z.gcd (mpval n) (mpval op0) = 1 /\
  returns (ct_inv_mod_mp_mp op0 n (s, s, s, s)) (Ok tt, NE [v], n) /\ mpval (NE [v]) = v /\ ~ is_inverse (mpval n) (mpval op0) v.
Proof.
  intros [l64 am u64 d] HA HU. cbn in HA, HU. subst am u64. destruct l64.
  - exists (NE [9]), (NE [2 ^ 64 - 17]), [0], 2049638230412172383.
    split; [destruct d; okmp|]. split; [destruct d; okmp|]. split; [split; left; destruct d; vm_compute; congruence|].
    split; [split; [destruct d; okmp|destruct d; vm_compute; congruence]|]. split; [destruct d; vm_compute; reflexivity|]. split; [destruct d; vm_compute; reflexivity|].
    split; [destruct d; vm_compute; reflexivity|]. split; [destruct d; vm_compute; reflexivity|]. intros [_ E]. destruct d; vm_compute in E; discriminate E.
  - exists (NE [9]), (NE [2 ^ 32 - 3]), [0], 3817748708.
    split; [destruct d; okmp|]. split; [destruct d; okmp|]. split; [split; left; destruct d; vm_compute; congruence|].
    split; [split; [destruct d; okmp|destruct d; vm_compute; congruence]|]. split; [destruct d; vm_compute; reflexivity|]. split; [destruct d; vm_compute; reflexivity|].
    split; [destruct d; vm_compute; reflexivity|]. split; [destruct d; vm_compute; reflexivity|]. intros [_ E]. destruct d; vm_compute in E; discriminate E.
Qed.
Print Assumptions C36_inv_any_refuted.

(** Debug builds may panic, see C35. The modulus is a power of two. *)
Theorem C36_inv_any_debug_refuted : forall (c : cfg), debug c = true ->
  exists op0 n s e, mp_ok op0 /\ mp_ok n /\ mut_compat op0 n /\ scratch_ok n s /\ mpval n = 2 ^ e /\ 0 < e /\ Z.odd (mpval op0) = true /\
  panics (ct_inv_mod_mp_mp op0 n (s, s, s, s)).
Proof.
  intros c H. exists (NE (if limb64 c then [0xffffffffffffffff; 0x7ffffffffffffffe; 0xffffffffffffffff; 0x3ffffffffffffffe; 0x3ffffffffffffffe; 0x1ffffffffffffffe]
    else [0xffffffff; 0x7ffffffe; 0xffffffff; 0x3ffffffe; 0x3ffffffe; 0x1ffffffe])), (NE [0; 0; 0; 0; 0; 1]), [0; 0; 0; 0; 0; 0], (5 * W).
  revert H. destruct c as [l64 am u64 d]. cbn [debug]. intros ->. destruct l64, am, u64;
  (split; [okmp|]; split; [okmp|]; split; [split; left; vm_compute; congruence|]; split; [split; [okmp|vm_compute; congruence]|]; split; [vm_compute; reflexivity|];
   split; [vm_compute; reflexivity|]; split; vm_compute; reflexivity).
Qed.
Print Assumptions C36_inv_any_debug_refuted.

(** A concrete case meeting the hypotheses: the modulus is 35 * 2^2 = 140, the operand 3 with inverse 47. *)
Example ex_inv_any : let c := mkcfg false false true true in
  let n := BE [0; 0; 0; 0; 140] in let x := LE [3; 0; 0; 0; 0] in let s := [7; 7] in
  mp_ok x /\ mp_ok n /\ mut_compat x n /\ scratch_ok n s /\ nlimbs n <= 2 /\ mpval n = 35 * 2 ^ 2 /\ Z.odd 35 = true /\ 35 <= B ^ (nlimbs n - 1) /\
  1 < mpval n /\ Z.gcd (mpval n) (mpval x) = 1 /\
  snd (ct_inv_mod_mp_mp x n (s, s, s, s)) = Some (Ok tt, LE [47; 0; 0; 0; 0], n) /\ is_inverse (mpval n) (mpval x) 47.
Proof.
  cbv zeta. split; [okmp|]. split; [okmp|]. split; [split; left; vm_compute; congruence|]. split; [split; [okmp|vm_compute; congruence]|]. split; [vm_compute; congruence|].
  split; [vm_compute; reflexivity|]. split; [reflexivity|]. split; [vm_compute; congruence|]. split; [vm_compute; reflexivity|]. split; [vm_compute; reflexivity|].
  split; [vm_compute; reflexivity|]. split; [vm_compute; split; congruence|vm_compute; reflexivity].
Qed.

(** Operands which aren't coprime, with an even modulus: 18 and 15. *)
Example ex_inv_any_not_coprime : let c := mkcfg true false true true in
  let n := NE [18] in let x := LE [15; 0; 0; 0; 0; 0; 0; 0] in let s := [7; 7] in
  mp_ok x /\ mp_ok n /\ mut_compat x n /\ scratch_ok n s /\ 0 < mpval n /\ Z.odd (mpval x) = true /\ Z.gcd (mpval n) (mpval x) <> 1 /\
  snd (ct_inv_mod_mp_mp x n (s, s, s, s)) = Some (Err ImOperandsNotCoprime, LE [0; 0; 0; 0; 0; 0; 0; 0], n).
Proof.
  cbv zeta. split; [okmp|]. split; [okmp|]. split; [split; left; vm_compute; congruence|]. split; [split; [okmp|vm_compute; congruence]|].
  split; [vm_compute; reflexivity|]. split; [reflexivity|]. split; [vm_compute; congruence|]. vm_compute. reflexivity.
Qed.

(** The residues fit when inverting 9 modulo (2^61 - 1) * 2^3 in two limbs of 32 bits. *)
Example ex_inv_any_fits : let c := mkcfg false false true true in let n := NE [0xfffffff8; 0xffffffff] in let x := NE [9; 0] in let s := [7; 7] in
  mp_ok x /\ mp_ok n /\ mut_compat x n /\ scratch_ok n s /\ nlimbs n <= 2 /\ mpval n = (2 ^ 61 - 1) * 2 ^ 3 /\ residues_fit (2 ^ 61 - 1) (nlimbs n - 1) (mpval x) /\
  Z.gcd (mpval n) (mpval x) = 1.
Proof.
  set (c := mkcfg false false true true). cbv zeta. split; [okmp|]. split; [okmp|]. split; [split; left; vm_compute; congruence|]. split; [split; [okmp|vm_compute; congruence]|].
  split; [vm_compute; congruence|]. split; [vm_compute; reflexivity|]. split; [|vm_compute; reflexivity].
  change (nlimbs (NE [0xfffffff8; 0xffffffff]) - 1) with 1. change (mpval (NE [9; 0])) with 9.
  apply (fit_check_correct 5 _ 1 1073741823 9 2049638230412172401); [lia|vm_compute; auto|exists 2305843007066210303|exists 8|]; vm_compute; auto.
Qed.

(** The field prime of P-256 and 5 in big-endian buffers of 32 bytes. *)
Example ex_inv_any_curves : let c := mkcfg true false true false in
  let n := BE ([255; 255; 255; 255; 0; 0; 0; 1] ++ zrepeat 0 12 ++ zrepeat 255 12) in let x := BE (zrepeat 0 31 ++ [5]) in let s := [7; 7; 7; 7] in
  mp_ok x /\ mp_ok n /\ mut_compat x n /\ scratch_ok n s /\ W * nlimbs n = 256 /\ In (256, mpval n, mpval x) (wrong_inverses (limb64 c)).
Proof.
  cbv zeta. split; [okmp|]. split; [okmp|]. split; [split; left; vm_compute; congruence|]. split; [split; [okmp|vm_compute; congruence]|]. split; [vm_compute; reflexivity|].
  left. vm_compute. reflexivity.
Qed.

(** An even modulus for which the inverse modulo the odd part comes out wrong: (2^63 - 25) * 2 in one limb of 64 bits. *)
Example ex_inv_any_even : let c := mkcfg true false true false in let n := NE [2 ^ 64 - 50] in let x := NE [201] in let s := [7] in let m := 2 ^ 63 - 25 in
  mp_ok x /\ mp_ok n /\ mut_compat x n /\ scratch_ok n s /\ gcd_len_ok (LB * nlimbs n) /\ mpval n = m * 2 ^ 1 /\ Z.odd m = true /\ 1 < m /\
  liftable (mpval x) (8 * mp_len n - 1) /\ liftable m (8 * mp_len n - 1) /\ Z.gcd (mpval n) (mpval x) = 1 /\
  (exists d f, batches 3 (1, m, mpval x) = (d, f, 0) /\ 0 < f) /\ fst (residues m (nlimbs n - 1) (mpval x) 3) <> 0 /\
  exists w, snd (ct_inv_mod_mp_mp x n (s, s, s, s)) = Some (Ok tt, NE [w], n) /\ ~ is_inverse (mpval n) (mpval x) w.
Proof.
  set (c := mkcfg true false true false). cbv zeta. split; [okmp|]. split; [okmp|]. split; [split; left; vm_compute; congruence|]. split; [split; [okmp|vm_compute; congruence]|].
  split; [vm_compute; reflexivity|]. split; [vm_compute; reflexivity|]. split; [vm_compute; reflexivity|]. split; [vm_compute; reflexivity|].
  split; [apply InvFacts.liftable_small; vm_compute; congruence|]. split; [apply InvFacts.liftable_small; vm_compute; congruence|]. split; [vm_compute; reflexivity|].
  split; [do 2 eexists; split; vm_compute; reflexivity|]. split; [vm_compute; congruence|].
  eexists. split; [vm_compute; reflexivity|]. intros [_ E]. vm_compute in E. discriminate E.
Qed.
