(** C37: the least common multiple, src/lcm_impl.rs.

    [becomes b b' v] (SpecBuf.v): the buffer b' has the encoding and the length of b and holds the value v. [mut_compat]
    and [gcd_len_ok] are defined in SpecEuclid.v, the least common multiple is the standard library's. *)
From Coq Require Import ZArith List Lia.
Require Import Verif.Spec Verif.Monad Verif.ModelLimb Verif.ModelBuf Verif.SpecBuf Verif.SpecMont Verif.SpecEuclid Verif.ModelEuclid Verif.ModelLcm
  Verif.SpecDiv Verif.LcmProofs Verif.LcmExact.
Import ListNotations.
Open Scope Z_scope.

Ltac okmp := split; [repeat constructor; vm_compute; congruence|vm_compute; reflexivity].
Ltac okmpc := split; [vm_compute; repeat constructor; congruence|vm_compute; reflexivity].

(** The result becomes the least common multiple of operands of equal length, each fitting the length announced for it,
    also if either or both are zero. With a second operand in native encoding, the sum of the announced lengths has to
    be a multiple of the size of a limb, and the result needs as many bytes more as the longer one of the announced
    lengths lacks to a multiple of the size of a limb: see the refutations below. *)
Theorem C37_lcm_partial : forall (c : cfg) res op0 l0 op1 l1 scr, mp_ok res -> mp_ok op0 -> mp_ok op1 -> mp_ok scr -> kind_of scr = kind_of op1 ->
  mp_len op0 = mp_len op1 -> gcd_len_ok (mp_len op0) -> 0 < l0 <= mp_len op0 -> 0 < l1 <= mp_len op1 ->
  mpval op0 < 256 ^ l0 -> mpval op1 < 256 ^ l1 -> l0 + l1 <= mp_len res -> l0 + l1 <= mp_len scr ->
  (kind_of op1 = KNE -> (l0 + l1) mod LB = 0 /\ l0 + l1 + (ct_mp_limbs_align_len (Z.max l0 l1) - Z.max l0 l1) <= mp_len res) ->
  yields (ct_lcm_mp_mp res op0 l0 op1 l1 scr) (fun '(r, res', op0', op1', scr') =>
    r = Ok tt /\ becomes res res' (Z.lcm (mpval op0) (mpval op1)) /\
    mp_ok op0' /\ same_shape op0 op0' /\ mp_ok op1' /\ same_shape op1 op1' /\ mp_ok scr' /\ same_shape scr scr').
Proof. exact @lcm_correct. Qed.
Print Assumptions C37_lcm_partial.

(** Announced lengths exceeding the operands' are cut. *)
Theorem C37_lcm_clamp : forall (c : cfg) res op0 l0 op1 l1 scr,
  ct_lcm_mp_mp res op0 l0 op1 l1 scr = ct_lcm_mp_mp res op0 (Z.min l0 (mp_len op0)) op1 (Z.min l1 (mp_len op1)) scr.
Proof. exact @lcm_clamp. Qed.
Print Assumptions C37_lcm_clamp.

(** An operand of no bytes is zero, and so is the result. *)
Theorem C37_lcm_empty : forall (c : cfg) res op0 l0 op1 l1 scr, mp_ok res -> 0 <= l0 -> 0 <= l1 -> Z.min l0 (mp_len op0) = 0 \/ Z.min l1 (mp_len op1) = 0 ->
  yields (ct_lcm_mp_mp res op0 l0 op1 l1 scr) (fun '(r, res', op0', op1', scr') =>
    r = Ok tt /\ becomes res res' 0 /\ op0' = op0 /\ op1' = op1 /\ scr' = scr).
Proof. exact @lcm_empty. Qed.
Print Assumptions C37_lcm_empty.

(** Mismatching operands and a result or a scratch space too short are refused, everything remaining untouched. *)
Theorem C37_lcm_errors : forall (c : cfg) res op0 l0 op1 l1 scr, mp_ok op0 -> mp_ok op1 -> mp_ok scr -> kind_of scr = kind_of op1 ->
  0 < l0 <= mp_len op0 -> 0 < l1 <= mp_len op1 ->
  (~ mut_compat op0 op1 -> returns (ct_lcm_mp_mp res op0 l0 op1 l1 scr) (Err LcmInconsistentOperandLengths, res, op0, op1, scr)) /\
  (mut_compat op0 op1 -> debug c = false \/ mp_len op0 = mp_len op1 -> mp_len res < l0 + l1 ->
   returns (ct_lcm_mp_mp res op0 l0 op1 l1 scr) (Err LcmInsufficientResultSpace, res, op0, op1, scr)) /\
  (mut_compat op0 op1 -> debug c = false \/ mp_len op0 = mp_len op1 -> l0 + l1 <= mp_len res -> mp_len scr < l0 + l1 ->
   returns (ct_lcm_mp_mp res op0 l0 op1 l1 scr) (Err LcmInsufficientScratchSpace, res, op0, op1, scr)).
Proof. exact @lcm_errors. Qed.
Print Assumptions C37_lcm_errors.

(** What happens for operands passing the check on their lengths and announced lengths not exceeding the first one's: debug builds
    panic if the operands differ in length, or if the second one is in native encoding and the announced lengths do not
    add up to whole limbs. Otherwise the result is right if it has room for [lcm_room] (SpecEuclid.v) bytes, which is the
    sum of the announced lengths unless the second operand is in native encoding, and all builds panic if it has not. *)
Theorem C37_lcm_exact : forall (c : cfg) res op0 l0 op1 l1 scr, mp_ok res -> mp_ok op0 -> mp_ok op1 -> mp_ok scr -> kind_of scr = kind_of op1 ->
  mut_compat op0 op1 -> gcd_len_ok (Z.max (mp_len op0) (mp_len op1)) ->
  0 < l0 -> 0 < l1 <= mp_len op1 -> Z.max l0 l1 <= mp_len op0 ->
  mpval op0 < 256 ^ l0 -> mpval op1 < 256 ^ l1 -> l0 + l1 <= mp_len res -> l0 + l1 <= mp_len scr ->
  (debug c = true -> mp_len op0 <> mp_len op1 \/ (kind_of op1 = KNE /\ (l0 + l1) mod LB <> 0) -> panics (ct_lcm_mp_mp res op0 l0 op1 l1 scr)) /\
  (debug c = false \/ (mp_len op0 = mp_len op1 /\ (kind_of op1 = KNE -> (l0 + l1) mod LB = 0)) ->
   (mp_len res < lcm_room op1 l0 l1 -> panics (ct_lcm_mp_mp res op0 l0 op1 l1 scr)) /\
   (lcm_room op1 l0 l1 <= mp_len res ->
    yields (ct_lcm_mp_mp res op0 l0 op1 l1 scr) (fun '(r, res', op0', op1', scr') =>
      r = Ok tt /\ becomes res res' (Z.lcm (mpval op0) (mpval op1)) /\
      mp_ok op0' /\ same_shape op0 op0' /\ mp_ok op1' /\ same_shape op1 op1' /\ mp_ok scr' /\ same_shape scr scr'))).
Proof. exact @lcm_exact. Qed.
Print Assumptions C37_lcm_exact.

(** The remaining case: a second operand in native encoding, longer than the first operand within alignment excess, and announced to be so. Debug
    builds panic. Release builds divide by the wrong number, [lcm_short_divisor] (SpecEuclid.v): they panic if this is zero, if the result is too
    short, or if the quotient does not fit its limbs, and give back the low bytes of the quotient otherwise. *)
Theorem C37_lcm_first_short : forall c : cfg, forall res op0 l0 op1 l1 scr, mp_ok res -> mp_ok op0 -> mp_ok op1 -> mp_ok scr -> kind_of scr = kind_of op1 ->
  mut_compat op0 op1 -> gcd_len_ok (Z.max (mp_len op0) (mp_len op1)) -> 0 < l0 <= mp_len op0 -> mp_len op0 < l1 <= mp_len op1 ->
  mpval op0 < 256 ^ l0 -> mpval op1 < 256 ^ l1 -> l0 + l1 <= mp_len res -> l0 + l1 <= mp_len scr ->
  let D := lcm_short_divisor (mpval op0) (mpval op1) l1 (mp_len op0) in let q := lcm_short_quotient (mpval op0) (mpval op1) l1 (mp_len op0) in
  (debug c = true \/ D = 0 -> panics (ct_lcm_mp_mp res op0 l0 op1 l1 scr)) /\
  (debug c = false -> forall n, byte_len D n ->
   (mp_len res + n < stored_len op1 (l0 + l1) + stored_len op1 l1 \/ B ^ nlimbs res <= q -> panics (ct_lcm_mp_mp res op0 l0 op1 l1 scr)) /\
   (stored_len op1 (l0 + l1) + stored_len op1 l1 <= mp_len res + n -> q < B ^ nlimbs res ->
    yields (ct_lcm_mp_mp res op0 l0 op1 l1 scr) (fun '(r, res', op0', op1', scr') =>
      r = Ok tt /\ becomes res res' (q mod 256 ^ mp_len res) /\
      mp_ok op0' /\ same_shape op0 op0' /\ mp_ok op1' /\ same_shape op1 op1' /\ mp_ok scr' /\ same_shape scr scr'))).
Proof. exact @lcm_first_short. Qed.
Print Assumptions C37_lcm_first_short.

(** Which is never the least common multiple of numbers other than zero, for results long enough not to lose a part of the quotient. *)
Theorem C37_lcm_first_short_refuted : forall c : cfg, forall res op0 l0 op1 l1 scr, mp_ok res -> mp_ok op0 -> mp_ok op1 -> mp_ok scr -> kind_of scr = kind_of op1 ->
  mut_compat op0 op1 -> gcd_len_ok (Z.max (mp_len op0) (mp_len op1)) -> 0 < l0 <= mp_len op0 -> mp_len op0 < l1 <= mp_len op1 ->
  mpval op0 < 256 ^ l0 -> mpval op1 < 256 ^ l1 -> 0 < mpval op0 -> 0 < mpval op1 ->
  l0 + mp_len op0 + l1 <= mp_len res -> l0 + l1 <= mp_len scr ->
  panics (ct_lcm_mp_mp res op0 l0 op1 l1 scr) \/
  yields (ct_lcm_mp_mp res op0 l0 op1 l1 scr) (fun '(r, res', _, _, _) => r = Ok tt /\ mpval res' <> Z.lcm (mpval op0) (mpval op1)).
Proof. exact @lcm_first_short_wrong. Qed.
Print Assumptions C37_lcm_first_short_refuted.

(** The check on the lengths admits operands of different encodings which differ in length within alignment excess, see
    [mut_compat]; a debug build then panics. *)
Theorem C37_lcm_excess_refuted : forall c : cfg, debug c = true -> exists res op0 l0 op1 l1 scr,
  mp_ok res /\ mp_ok op0 /\ mp_ok op1 /\ mp_ok scr /\ kind_of scr = kind_of op1 /\ kind_of op1 <> KNE /\ mut_compat op0 op1 /\
  0 < l0 <= mp_len op0 /\ 0 < l1 <= mp_len op1 /\
  mpval op0 < 256 ^ l0 /\ mpval op1 < 256 ^ l1 /\ l0 + l1 <= mp_len res /\ l0 + l1 <= mp_len scr /\
  panics (ct_lcm_mp_mp res op0 l0 op1 l1 scr).
Proof.
  intros c H. exists (LE (zrepeat 0 16)), (NE [6]), 1, (LE (4 :: zrepeat 0 (LB - 2))), 1, (LE [0; 0]).
  revert H. destruct c as [l64 am u64 d]. cbn [debug]. intros ->. destruct l64, am, u64;
  (split; [okmp|]; split; [okmp|]; split; [okmpc|]; split; [okmp|]; split; [reflexivity|]; split; [discriminate|];
   split; [split; [right; split; [|split]; vm_compute; reflexivity|left; vm_compute; congruence]|];
   split; [vm_compute; split; congruence|]; split; [vm_compute; split; congruence|];
   split; [vm_compute; reflexivity|]; split; [vm_compute; reflexivity|]; split; [vm_compute; congruence|]; split; [vm_compute; congruence|];
   vm_compute; reflexivity).
Qed.
Print Assumptions C37_lcm_excess_refuted.

(** With a second operand in native encoding and announced lengths not adding up to a multiple of the size of a limb, a
    debug build panics even if all buffers have room to spare. *)
Theorem C37_lcm_native_sum_refuted : forall c : cfg, debug c = true -> exists res op0 l0 op1 l1 scr,
  mp_ok res /\ mp_ok op0 /\ mp_ok op1 /\ mp_ok scr /\ kind_of scr = kind_of op1 /\ mp_len op0 = mp_len op1 /\
  0 < l0 <= mp_len op0 /\ 0 < l1 <= mp_len op1 /\
  mpval op0 < 256 ^ l0 /\ mpval op1 < 256 ^ l1 /\ l0 + l1 + LB <= mp_len res /\ l0 + l1 + LB <= mp_len scr /\
  panics (ct_lcm_mp_mp res op0 l0 op1 l1 scr).
Proof.
  intros c H. exists (LE (zrepeat 0 16)), (NE [6]), 3, (NE [4]), 3, (NE [0; 0; 0]).
  revert H. destruct c as [l64 am u64 d]. cbn [debug]. intros ->. destruct l64, am, u64;
  (split; [okmp|]; split; [okmp|]; split; [okmp|]; split; [okmp|]; split; [reflexivity|]; split; [reflexivity|];
   split; [vm_compute; split; congruence|]; split; [vm_compute; split; congruence|];
   split; [vm_compute; reflexivity|]; split; [vm_compute; reflexivity|]; split; [vm_compute; congruence|]; split; [vm_compute; congruence|];
   vm_compute; reflexivity).
Qed.
Print Assumptions C37_lcm_native_sum_refuted.

(** With a second operand in native encoding and a sum of the announced lengths which is a multiple of the size of a limb,
    a result as long as this sum does not suffice: all builds panic. *)
Theorem C37_lcm_native_result_refuted : forall c : cfg, exists res op0 l0 op1 l1 scr,
  mp_ok res /\ mp_ok op0 /\ mp_ok op1 /\ mp_ok scr /\ kind_of scr = kind_of op1 /\ mp_len op0 = mp_len op1 /\
  0 < l0 <= mp_len op0 /\ 0 < l1 <= mp_len op1 /\ (l0 + l1) mod LB = 0 /\
  mpval op0 < 256 ^ l0 /\ mpval op1 < 256 ^ l1 /\ l0 + l1 <= mp_len res /\ l0 + l1 <= mp_len scr /\
  panics (ct_lcm_mp_mp res op0 l0 op1 l1 scr).
Proof.
  intros c. exists (NE [0]), (NE [6]), (LB / 2), (NE [4]), (LB / 2), (NE [0]).
  destruct c as [l64 am u64 d]. destruct l64, am, u64, d;
  (split; [okmp|]; split; [okmp|]; split; [okmp|]; split; [okmp|]; split; [reflexivity|]; split; [reflexivity|];
   split; [vm_compute; split; congruence|]; split; [vm_compute; split; congruence|]; split; [vm_compute; reflexivity|];
   split; [vm_compute; reflexivity|]; split; [vm_compute; reflexivity|]; split; [vm_compute; congruence|]; split; [vm_compute; congruence|];
   vm_compute; reflexivity).
Qed.
Print Assumptions C37_lcm_native_result_refuted.

(** Concrete cases meeting the hypotheses. *)
Example ex_lcm : let c := mkcfg true false true true in
  let res := BE (zrepeat 255 8) in let op0 := LE [72; 1; 0; 0; 0] in let op1 := BE [0; 0; 1; 2; 28] in let scr := BE (zrepeat 7 8) in
  mp_ok res /\ mp_ok op0 /\ mp_ok op1 /\ mp_ok scr /\ kind_of scr = kind_of op1 /\ mp_len op0 = mp_len op1 /\ gcd_len_ok (mp_len op0) /\
  0 < 3 <= mp_len op0 /\ 0 < 5 <= mp_len op1 /\ mpval op0 < 256 ^ 3 /\ mpval op1 < 256 ^ 5 /\ 3 + 5 <= mp_len res /\ 3 + 5 <= mp_len scr /\
  kind_of op1 <> KNE /\ Z.lcm (mpval op0) (mpval op1) = 328 * 66076 / 4 /\
  snd (ct_lcm_mp_mp res op0 3 op1 5 scr) =
    Some (Ok tt, BE [0; 0; 0; 0; 0; 82; 172; 248], LE [0; 0; 0; 0; 128], BE [0; 0; 0; 0; 0], BE (zrepeat 0 8)).
Proof.
  cbv zeta. split; [okmp|]. split; [okmp|]. split; [okmp|]. split; [okmp|]. split; [reflexivity|]. split; [reflexivity|]. split; [vm_compute; reflexivity|].
  split; [vm_compute; split; congruence|]. split; [vm_compute; split; congruence|]. split; [vm_compute; reflexivity|]. split; [vm_compute; reflexivity|].
  split; [vm_compute; congruence|]. split; [vm_compute; congruence|]. split; [discriminate|]. split; vm_compute; reflexivity.
Qed.

Example ex_lcm_native : let c := mkcfg false false true true in
  let res := NE [9; 9; 9; 9] in let op0 := NE [6; 0x80000000] in let op1 := NE [4; 1] in let scr := NE [0; 0; 0; 0] in
  mp_ok res /\ mp_ok op0 /\ mp_ok op1 /\ mp_ok scr /\ kind_of scr = kind_of op1 /\ mp_len op0 = mp_len op1 /\ gcd_len_ok (mp_len op0) /\
  0 < 8 <= mp_len op0 /\ 0 < 8 <= mp_len op1 /\ mpval op0 < 256 ^ 8 /\ mpval op1 < 256 ^ 8 /\ 8 + 8 <= mp_len res /\ 8 + 8 <= mp_len scr /\
  (8 + 8) mod LB = 0 /\ 8 + 8 + (ct_mp_limbs_align_len (Z.max 8 8) - Z.max 8 8) <= mp_len res.
Proof.
  cbv zeta. split; [okmp|]. split; [okmp|]. split; [okmp|]. split; [okmp|]. split; [reflexivity|]. split; [reflexivity|]. split; [vm_compute; reflexivity|].
  split; [vm_compute; split; congruence|]. split; [vm_compute; split; congruence|]. split; [vm_compute; reflexivity|]. split; [vm_compute; reflexivity|].
  split; [vm_compute; congruence|]. split; [vm_compute; congruence|]. split; [reflexivity|]. vm_compute; congruence.
Qed.

(** Release builds cope with lengths differing within alignment excess and with announced lengths adding up to no whole limbs, given room. *)
Example ex_lcm_exact : let c := mkcfg false false true false in
  let res := BE (zrepeat 255 11) in let op0 := LE [72; 1; 0; 0; 0; 0; 0] in let op1 := NE [66076; 0] in let scr := NE [7; 7; 7] in
  mp_ok res /\ mp_ok op0 /\ mp_ok op1 /\ mp_ok scr /\ kind_of scr = kind_of op1 /\ mut_compat op0 op1 /\ gcd_len_ok (Z.max (mp_len op0) (mp_len op1)) /\
  Z.max 3 5 <= Z.min (mp_len op0) (mp_len op1) /\ mpval op0 < 256 ^ 3 /\ mpval op1 < 256 ^ 6 /\ 3 + 6 <= mp_len res /\ 3 + 6 <= mp_len scr /\
  lcm_room op1 3 6 = 14 /\ lcm_room op1 3 4 = 8 /\ lcm_room op1 3 5 = 11 /\
  snd (ct_lcm_mp_mp res op0 3 op1 6 scr) = None /\
  match snd (ct_lcm_mp_mp res op0 3 op1 5 scr) with Some (r, res', _, _, _) => r = Ok tt /\ mpval res' = 328 * 66076 / 4 | None => False end.
Proof.
  cbv zeta. split; [okmp|]. split; [okmp|]. split; [okmp|]. split; [okmp|]. split; [reflexivity|].
  split; [split; [left; vm_compute; congruence|right; split; [|split]; vm_compute; reflexivity]|]. split; [vm_compute; reflexivity|].
  split; [vm_compute; congruence|]. split; [vm_compute; reflexivity|]. split; [vm_compute; reflexivity|]. split; [vm_compute; congruence|]. split; [vm_compute; congruence|].
  split; [reflexivity|]. split; [reflexivity|]. split; [reflexivity|]. split; [vm_compute; reflexivity|]. vm_compute. split; reflexivity.
Qed.

(** Three bytes in front of a 32 bit limb, in release builds: a number comes out which is not the least common multiple. *)
Example ex_lcm_first_short : let c := mkcfg false true true false in
  let res := LE (zrepeat 255 24) in let op0 := LE [0x21; 0x60; 0xc0] in let op1 := NE [0xc06021] in let scr := NE [0; 0] in
  mp_ok res /\ mp_ok op0 /\ mp_ok op1 /\ mp_ok scr /\ kind_of scr = kind_of op1 /\ mut_compat op0 op1 /\ gcd_len_ok (Z.max (mp_len op0) (mp_len op1)) /\
  0 < 3 <= mp_len op0 /\ mp_len op0 < 4 <= mp_len op1 /\ mpval op0 < 256 ^ 3 /\ mpval op1 < 256 ^ 4 /\ 3 + mp_len op0 + 4 <= mp_len res /\ 3 + 4 <= mp_len scr /\
  Z.lcm (mpval op0) (mpval op1) = 0xc06021 /\ byte_len (lcm_short_divisor (mpval op0) (mpval op1) 4 (mp_len op0)) 3 /\
  lcm_short_quotient (mpval op0) (mpval op1) 4 (mp_len op0) = 6459002225 /\
  match snd (ct_lcm_mp_mp res op0 3 op1 4 scr) with Some (r, res', _, _, _) => r = Ok tt /\ mpval res' = 6459002225 | None => False end.
Proof.
  cbv zeta. split; [okmp|]. split; [okmp|]. split; [okmp|]. split; [okmp|]. split; [reflexivity|].
  split; [split; [left; vm_compute; congruence|right; split; [|split]; vm_compute; reflexivity]|]. split; [vm_compute; reflexivity|].
  split; [vm_compute; split; congruence|]. split; [vm_compute; split; congruence|]. split; [vm_compute; reflexivity|]. split; [vm_compute; reflexivity|].
  split; [vm_compute; congruence|]. split; [vm_compute; congruence|]. split; [vm_compute; reflexivity|].
  split; [vm_compute; split; [congruence|split; congruence]|]. split; [vm_compute; reflexivity|]. vm_compute. split; reflexivity.
Qed.
