(** Theorems about inversion modulo odd numbers: property C34.

    [is_inverse n x v] (SpecEuclid.v) says that v is the number below n with x * v = 1 modulo n. [len_compat], [mut_compat]
    and [gcd_len_ok] are the conditions on lengths from SpecMont.v and SpecEuclid.v.

    The code is wrong for moduli filling their most significant limb: the last step of the Montgomery reduction of
    negative numbers sets bits which are not sign bits, and a carry is lost. [C34_inv_odd_partial] therefore asks the
    modulus to leave its buffer's most significant limb unused, which any modulus does in a long enough buffer.
    [C34_inv_odd_any_partial] is for all odd moduli and asks instead that none of the numbers computed on the way leaves the
    range the code can represent, [residues_fit] in SpecSteps.v. [C34_inv_odd_exact] says what comes out for all odd moduli,
    right or wrong, in terms of the numbers [batches] and [residues] of SpecSteps.v. *)
From Coq Require Import ZArith List Bool Lia.
Require Import Verif.Spec Verif.Monad Verif.ModelLimb Verif.ModelBuf Verif.SpecBuf Verif.SpecMont Verif.SpecEuclid Verif.SpecSteps Verif.ModelEuclid Verif.InvOddFacts4 Verif.InvOddProofs Verif.InvOddWrong Verif.FitCheck.
Import ListNotations.
Open Scope Z_scope.

Ltac okmp := split; [repeat constructor; vm_compute; congruence|vm_compute; reflexivity].

(** ** C34: modular inverse, odd modulus *)

(** The operand coprime to a modulus greater than one with a spare limb: the result is the inverse. *)
Theorem C34_inv_odd_partial : forall (c : cfg) result op0 n s0 s1, mp_ok result -> mp_ok op0 -> mp_ok n ->
  Z.odd (mpval n) = true -> 1 < mpval n ->
  len_compat n (mp_len result) -> mut_compat op0 n -> mp_ok (NE s0) -> mp_ok (NE s1) -> nlimbs n <= zlen s0 -> nlimbs n <= zlen s1 ->
  gcd_len_ok (LB * nlimbs n) ->
  mpval n <= B ^ (nlimbs n - 1) ->
  Z.gcd (mpval n) (mpval op0) = 1 ->
  yields (ct_inv_mod_odd_mp_mp result op0 n s0 s1) (fun '(res, result', op0', _, _) =>
    res = Ok tt /\ is_inverse (mpval n) (mpval op0) (mpval result') /\ becomes result result' (mpval result') /\ becomes op0 op0' 0).
Proof. exact @inv_odd_correct. Qed.
Print Assumptions C34_inv_odd_partial.

(** Any odd modulus greater than one, all residues computed on the way fitting the buffer: the result is the inverse. *)
Theorem C34_inv_odd_any_partial : forall (c : cfg) result op0 n s0 s1, mp_ok result -> mp_ok op0 -> mp_ok n ->
  Z.odd (mpval n) = true -> 1 < mpval n ->
  len_compat n (mp_len result) -> mut_compat op0 n -> mp_ok (NE s0) -> mp_ok (NE s1) -> nlimbs n <= zlen s0 -> nlimbs n <= zlen s1 ->
  gcd_len_ok (LB * nlimbs n) ->
  residues_fit (mpval n) (nlimbs n - 1) (mpval op0) ->
  Z.gcd (mpval n) (mpval op0) = 1 ->
  yields (ct_inv_mod_odd_mp_mp result op0 n s0 s1) (fun '(res, result', op0', _, _) =>
    res = Ok tt /\ is_inverse (mpval n) (mpval op0) (mpval result') /\ becomes result result' (mpval result') /\ becomes op0 op0' 0).
Proof. exact @inv_odd_any. Qed.
Print Assumptions C34_inv_odd_any_partial.

(** All residues fit if each batch of division steps swaps late enough, in particular if the most significant limb is unused. *)
Theorem C34_late_swaps_fit : forall (c : cfg) n p x, 0 <= p -> late_swaps n p x -> residues_fit n p x.
Proof. exact @late_swaps_fit. Qed.
Print Assumptions C34_late_swaps_fit.
Theorem C34_spare_limb_late : forall (c : cfg) n p x, 0 <= p -> 0 < n <= B ^ p -> late_swaps n p x.
Proof. exact @spare_late. Qed.
Print Assumptions C34_spare_limb_late.

(** The division steps come to an end, with the greatest common divisor up to sign. *)
Theorem C34_batches_end : forall (c : cfg) n x, Z.odd n = true -> 0 < n -> 0 <= x ->
  exists k d f, batches k (1, n, x) = (d, f, 0) /\ Z.abs f = Z.gcd n x.
Proof. exact @batches_end. Qed.
Print Assumptions C34_batches_end.

(** Any odd modulus greater than one and any operand coprime to it: when the division steps are done, the first residue or
    its negative is the result, unless it is zero. *)
Theorem C34_inv_odd_exact : forall (c : cfg) result op0 n s0 s1 k d f, mp_ok result -> mp_ok op0 -> mp_ok n ->
  Z.odd (mpval n) = true -> 1 < mpval n ->
  len_compat n (mp_len result) -> mut_compat op0 n -> mp_ok (NE s0) -> mp_ok (NE s1) -> nlimbs n <= zlen s0 -> nlimbs n <= zlen s1 ->
  gcd_len_ok (LB * nlimbs n) ->
  Z.gcd (mpval n) (mpval op0) = 1 ->
  batches k (1, mpval n, mpval op0) = (d, f, 0) ->
  let r := fst (residues (mpval n) (nlimbs n - 1) (mpval op0) k) in
  let v := if f <? 0 then mpval n - r else r in
  (debug c = true -> r = 0 -> panics (ct_inv_mod_odd_mp_mp result op0 n s0 s1)) /\
  (debug c = false \/ r <> 0 -> yields (ct_inv_mod_odd_mp_mp result op0 n s0 s1) (fun '(res, result', op0', _, _) =>
    res = (if v =? 0 then Err InvOperandsNotCoprime else Ok tt) /\ becomes result result' v /\ becomes op0 op0' 0)).
Proof. exact @inv_odd_exact. Qed.
Print Assumptions C34_inv_odd_exact.

(** The operand not coprime to the modulus, which may be any odd number, or the modulus equal to one: an error is reported. *)
Theorem C34_inv_odd_not_coprime : forall (c : cfg) result op0 n s0 s1, mp_ok result -> mp_ok op0 -> mp_ok n ->
  Z.odd (mpval n) = true ->
  len_compat n (mp_len result) -> mut_compat op0 n -> mp_ok (NE s0) -> mp_ok (NE s1) -> nlimbs n <= zlen s0 -> nlimbs n <= zlen s1 ->
  gcd_len_ok (LB * nlimbs n) -> Z.gcd (mpval n) (mpval op0) <> 1 \/ mpval n = 1 ->
  yields (ct_inv_mod_odd_mp_mp result op0 n s0 s1) (fun '(res, result', op0', _, _) =>
    res = Err InvOperandsNotCoprime /\ mp_ok result' /\ same_shape result result' /\ becomes op0 op0' 0).
Proof. exact @inv_odd_not_coprime. Qed.
Print Assumptions C34_inv_odd_not_coprime.

(** Any odd modulus in release builds: there is no panic, the result fits, and success implies an invertible operand. *)
Theorem C34_inv_odd_release : forall (c : cfg) result op0 n s0 s1, debug c = false -> mp_ok result -> mp_ok op0 -> mp_ok n ->
  Z.odd (mpval n) = true ->
  len_compat n (mp_len result) -> mut_compat op0 n -> mp_ok (NE s0) -> mp_ok (NE s1) -> nlimbs n <= zlen s0 -> nlimbs n <= zlen s1 ->
  gcd_len_ok (LB * nlimbs n) ->
  yields (ct_inv_mod_odd_mp_mp result op0 n s0 s1) (fun '(res, result', op0', _, _) =>
    (res = Ok tt \/ res = Err InvOperandsNotCoprime) /\ (res = Ok tt -> Z.gcd (mpval n) (mpval op0) = 1 /\ mpval result' <= mpval n) /\
    mp_ok result' /\ same_shape result result' /\ becomes op0 op0' 0).
Proof. exact @inv_odd_release. Qed.
Print Assumptions C34_inv_odd_release.

(** Unsuitable lengths and moduli are refused in this order, everything remaining untouched. *)
Theorem C34_inv_odd_errors : forall (c : cfg) result op0 n s0 s1, mp_ok result -> mp_ok op0 -> mp_ok n ->
  (~ len_compat n (mp_len result) ->
    returns (ct_inv_mod_odd_mp_mp result op0 n s0 s1) (Err InvInsufficientResultSpace, result, op0, s0, s1)) /\
  (len_compat n (mp_len result) -> ~ mut_compat op0 n ->
    returns (ct_inv_mod_odd_mp_mp result op0 n s0 s1) (Err InvInconsistentOperandLengths, result, op0, s0, s1)) /\
  (len_compat n (mp_len result) -> mut_compat op0 n -> zlen s0 < nlimbs n \/ zlen s1 < nlimbs n ->
    returns (ct_inv_mod_odd_mp_mp result op0 n s0 s1) (Err InvInsufficientScratchSpace, result, op0, s0, s1)) /\
  (len_compat n (mp_len result) -> mut_compat op0 n -> nlimbs n <= zlen s0 -> nlimbs n <= zlen s1 -> Z.odd (mpval n) = false ->
    returns (ct_inv_mod_odd_mp_mp result op0 n s0 s1) (Err InvInvalidModulus, result, op0, s0, s1)).
Proof. exact @inv_odd_errors. Qed.
Print Assumptions C34_inv_odd_errors.

(** Without the spare limb success may come with a number which is not the inverse. The moduli are 2^32 - 3 and 2^64 - 17
    for limbs of 32 and 64 bits, the operand is 9. *)
Theorem C34_inv_odd_refuted : forall (c : cfg), asm_math c = false -> usize64 c = true ->
  exists result op0 n s0 s1 v a b, mp_ok result /\ mp_ok op0 /\ mp_ok n /\ Z.odd (mpval n) = true /\ 1 < mpval n /\
  len_compat n (mp_len result) /\ mut_compat op0 n /\ mp_ok (NE s0) /\ mp_ok (NE s1) /\ nlimbs n <= zlen s0 /\ nlimbs n <= zlen s1 /\
  gcd_len_ok (LB * nlimbs n) /\ Z.gcd (mpval n) (mpval op0) = 1 /\
  returns (ct_inv_mod_odd_mp_mp result op0 n s0 s1) (Ok tt, NE [v], NE [0], a, b) /\
  mpval (NE [v]) = v /\ ~ is_inverse (mpval n) (mpval op0) v.
Proof.
  intros [l64 am u64 d] HA HU. cbn in HA, HU. subst am u64. destruct l64.
  - exists (NE [0]), (NE [9]), (NE [2 ^ 64 - 17]), [0], [0], 2049638230412172383, [1], [0].
    split; [destruct d; okmp|]. split; [destruct d; okmp|]. split; [destruct d; okmp|]. split; [destruct d; vm_compute; reflexivity|].
    split; [destruct d; vm_compute; reflexivity|]. split; [left; destruct d; vm_compute; congruence|]. split; [split; left; destruct d; vm_compute; congruence|].
    split; [destruct d; okmp|]. split; [destruct d; okmp|]. split; [destruct d; vm_compute; congruence|]. split; [destruct d; vm_compute; congruence|].
    split; [destruct d; vm_compute; reflexivity|]. split; [destruct d; vm_compute; reflexivity|]. split; [destruct d; vm_compute; reflexivity|].
    split; [destruct d; vm_compute; reflexivity|]. intros [_ E]. destruct d; vm_compute in E; discriminate E.
  - exists (NE [0]), (NE [9]), (NE [2 ^ 32 - 3]), [0], [0], 3817748708, [4294967295], [0].
    split; [destruct d; okmp|]. split; [destruct d; okmp|]. split; [destruct d; okmp|]. split; [destruct d; vm_compute; reflexivity|].
    split; [destruct d; vm_compute; reflexivity|]. split; [left; destruct d; vm_compute; congruence|]. split; [split; left; destruct d; vm_compute; congruence|].
    split; [destruct d; okmp|]. split; [destruct d; okmp|]. split; [destruct d; vm_compute; congruence|]. split; [destruct d; vm_compute; congruence|].
    split; [destruct d; vm_compute; reflexivity|]. split; [destruct d; vm_compute; reflexivity|]. split; [destruct d; vm_compute; reflexivity|].
    split; [destruct d; vm_compute; reflexivity|]. intros [_ E]. destruct d; vm_compute in E; discriminate E.
Qed.
Print Assumptions C34_inv_odd_refuted.

(** Nor need it even be noticed that there is an inverse: builds with debug assertions panic, others report that the operand
    is not coprime to the modulus. *)
Theorem C34_inv_odd_rejects_refuted : forall (c : cfg), exists result op0 n s0 s1, mp_ok result /\ mp_ok op0 /\ mp_ok n /\ Z.odd (mpval n) = true /\ 1 < mpval n /\
  len_compat n (mp_len result) /\ mut_compat op0 n /\ mp_ok (NE s0) /\ mp_ok (NE s1) /\ nlimbs n <= zlen s0 /\ nlimbs n <= zlen s1 /\
  gcd_len_ok (LB * nlimbs n) /\ Z.gcd (mpval n) (mpval op0) = 1 /\
  if debug c then panics (ct_inv_mod_odd_mp_mp result op0 n s0 s1)
  else yields (ct_inv_mod_odd_mp_mp result op0 n s0 s1) (fun '(res, _, _, _, _) => res = Err InvOperandsNotCoprime).
Proof. exact @inv_odd_rejects. Qed.
Print Assumptions C34_inv_odd_rejects_refuted.
(** In builds without debug assertions, a successful result need not even be below the modulus: the bound in
    [C34_inv_odd_release] is reached. *)
Theorem C34_inv_odd_unreduced_refuted : forall (c : cfg), debug c = false ->
  exists result op0 n s0 s1, mp_ok result /\ mp_ok op0 /\ mp_ok n /\ Z.odd (mpval n) = true /\ 1 < mpval n /\
  len_compat n (mp_len result) /\ mut_compat op0 n /\ mp_ok (NE s0) /\ mp_ok (NE s1) /\ nlimbs n <= zlen s0 /\ nlimbs n <= zlen s1 /\
  gcd_len_ok (LB * nlimbs n) /\ Z.gcd (mpval n) (mpval op0) = 1 /\
  yields (ct_inv_mod_odd_mp_mp result op0 n s0 s1) (fun '(res, result', _, _, _) => res = Ok tt /\ mpval result' = mpval n).
Proof. exact @inv_odd_unreduced. Qed.
Print Assumptions C34_inv_odd_unreduced_refuted.

(** The primes of widely used curves are among the moduli for which the code goes wrong if the buffers are just large enough:
    the field primes of P-256, secp256k1, Curve25519 and P-384 and the group order of secp256k1, whatever the encoding, the
    processor and the kind of build. [wrong_inverses] in SpecSteps.v
    lists the bits of the buffer, the modulus and an operand. *)
Theorem C34_inv_curves_refuted : forall (c : cfg) result op0 n s0 s1, mp_ok result -> mp_ok op0 -> mp_ok n ->
  len_compat n (mp_len result) -> mut_compat op0 n -> mp_ok (NE s0) -> mp_ok (NE s1) -> nlimbs n <= zlen s0 -> nlimbs n <= zlen s1 ->
  In (W * nlimbs n, mpval n, mpval op0) (wrong_inverses (limb64 c)) ->
  Z.odd (mpval n) = true /\ Z.gcd (mpval n) (mpval op0) = 1 /\
  yields (ct_inv_mod_odd_mp_mp result op0 n s0 s1) (fun '(res, result', _, _, _) =>
    res = Ok tt /\ ~ is_inverse (mpval n) (mpval op0) (mpval result')).
Proof. exact @inv_curves_wrong. Qed.
Print Assumptions C34_inv_curves_refuted.

(** The same modulus and operand with the spare limb: the hypotheses of [C34_inv_odd_partial] hold and the inverse comes out. *)
Example ex_inv_odd : let c := mkcfg false false true true in
  let n := BE [0; 0xff; 0xff; 0xff; 0xfd] in let x := LE [9; 0; 0; 0; 0] in let r := NE [5; 5] in
  mp_ok r /\ mp_ok x /\ mp_ok n /\ Z.odd (mpval n) = true /\ 1 < mpval n /\ len_compat n (mp_len r) /\ mut_compat x n /\
  mp_ok (NE [1; 2]) /\ nlimbs n <= zlen [1; 2] /\ gcd_len_ok (LB * nlimbs n) /\ mpval n <= B ^ (nlimbs n - 1) /\ Z.gcd (mpval n) (mpval x) = 1 /\
  option_map (fun '(r, v, _, _, _) => (r, v)) (snd (ct_inv_mod_odd_mp_mp r x n [1; 2] [1; 2])) = Some (Ok tt, NE [3817748705; 0]) /\
  is_inverse (mpval n) (mpval x) 3817748705.
Proof.
  cbv zeta. split; [okmp|]. split; [okmp|]. split; [okmp|]. split; [vm_compute; reflexivity|]. split; [vm_compute; reflexivity|].
  split; [left; vm_compute; congruence|]. split; [split; left; vm_compute; congruence|]. split; [okmp|]. split; [vm_compute; congruence|].
  split; [vm_compute; reflexivity|]. split; [vm_compute; congruence|]. split; [vm_compute; reflexivity|]. split; [vm_compute; reflexivity|].
  split; [vm_compute; split; congruence|vm_compute; reflexivity].
Qed.

(** An operand which isn't coprime to the modulus, 15 and 9. *)
Example ex_inv_odd_not_coprime : let c := mkcfg true false true true in
  let n := BE [15] in let x := NE [9] in let r := LE [5] in
  mp_ok r /\ mp_ok x /\ mp_ok n /\ Z.odd (mpval n) = true /\ len_compat n (mp_len r) /\ mut_compat x n /\
  mp_ok (NE [1]) /\ nlimbs n <= zlen [1] /\ gcd_len_ok (LB * nlimbs n) /\ Z.gcd (mpval n) (mpval x) <> 1.
Proof.
  cbv zeta. split; [okmp|]. split; [okmp|]. split; [okmp|]. split; [vm_compute; reflexivity|].
  split; [left; vm_compute; congruence|]. split; [split; [right; split; [|split]; vm_compute; reflexivity|left; vm_compute; congruence]|]. split; [okmp|]. split; [vm_compute; congruence|].
  split; [vm_compute; reflexivity|vm_compute; congruence].
Qed.

(** The residues fit when inverting 9 modulo the prime 2^255 - 19 in four limbs of 64 bits. *)
Example ex_inv_odd_any : let c := mkcfg true false true true in let p := 2 ^ 255 - 19 in
  residues_fit p 3 9 /\ B ^ 3 < p < B ^ 4 /\ Z.gcd p 9 = 1.
Proof.
  cbv zeta. split; [|vm_compute; auto]. set (c := mkcfg true false true true).
  apply (fit_check_correct 9 _ 3 4126245384908715493 9 32164469232587832062103051391302196625908329073789045566515995557753647122194);
    [lia|vm_compute; auto|exists (51801724132483561109884166794898623959217015305869971658062355430438606995439)|exists 5|]; vm_compute; auto.
Qed.
(** The swaps are late enough when inverting 3 modulo 2^130 - 5 in three limbs of 64 bits, the last one having two bits in use. *)
Example ex_inv_odd_late : let c := mkcfg true false true true in late_swaps (2 ^ 130 - 5) 2 3 /\ B ^ 2 < 2 ^ 130 - 5.
Proof. cbv zeta. split; [|vm_compute; auto]. apply (late_check_correct (c := mkcfg true false true true) 5); vm_compute; [discriminate|auto]. Qed.

(** What [C34_inv_odd_exact] says about the first of the wrong results above. *)
Example ex_inv_odd_exact : let c := mkcfg false false true true in
  batches 3 (1, 2 ^ 32 - 3, 9) = (25, -1, 0) /\ fst (residues (2 ^ 32 - 3) 0 9 3) = 2 ^ 32 - 3 - 3817748708.
Proof. cbv zeta. split; vm_compute; reflexivity. Qed.
