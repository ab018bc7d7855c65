(** Theorems about multiplication and squaring: properties C22-C24.

    Vocabulary (SpecBuf.v): [mpval b] is the integer the buffer [b] denotes, in
    any of the three encodings; [becomes b b' v] says that [b'] has the encoding
    and length of [b] and denotes [v]; [yields m P]: [m] does not panic and its
    result satisfies [P]; [choice z]: the LimbChoice for [z].  [mpval a mod 256^n]
    is the first factor: the low [n] = op0_in_len bytes of [a]. *)
From Coq Require Import ZArith List Bool Lia.
Require Import Verif.Spec Verif.Monad Verif.ModelLimb Verif.ModelBuf Verif.SpecBuf Verif.ThmLimb Verif.ModelMul Verif.SpecMul Verif.MulProofs Verif.SqExact Verif.MulAny Verif.MulAny2.
Import ListNotations.
Open Scope Z_scope.

(** ** C22: multiplication *)

Theorem C22_mul : forall (c : cfg) a n b, mp_ok a -> mp_ok b -> 0 <= n <= mp_len a ->
  yields (ct_mul_trunc_mp_mp a n b) (fun a' =>
    becomes a a' ((mpval a mod 256 ^ n * mpval b) mod 256 ^ mp_len a)).
Proof. exact mul_correct. Qed.
Print Assumptions C22_mul.

(** Nothing is truncated if op0.len() >= op0_in_len + op1.len(). *)
Theorem C22_mul_full : forall (c : cfg) a n b, mp_ok a -> mp_ok b -> 0 <= n -> n + mp_len b <= mp_len a ->
  yields (ct_mul_trunc_mp_mp a n b) (fun a' => becomes a a' (mpval a mod 256 ^ n * mpval b)).
Proof. exact mul_full_correct. Qed.
Print Assumptions C22_mul_full.

Theorem C22_mul_cond : forall (c : cfg) a n b (z : bool), mp_ok a -> mp_ok b -> 0 <= n <= mp_len a ->
  mpval a < 256 ^ n ->
  yields (ct_mul_trunc_cond_mp_mp a n b (choice z)) (fun a' =>
    becomes a a' (if z then (mpval a * mpval b) mod 256 ^ mp_len a else mpval a)).
Proof. exact mul_cond_correct. Qed.
Print Assumptions C22_mul_cond.

(** All first operands and lengths.  If the condition is false, bytes of [op0] above
    [op0_in_len] are cleared all the same, unless [op1] is empty: not quite the nop the
    documentation speaks of.  An [op0_in_len] beyond the end of [op0] panics in debug
    builds; in release builds it is taken for [op0]'s length as long as it does not reach
    beyond the last limb, or (byte buffers without a partial limb) the one behind it. *)
Theorem C22_mul_any : forall (c : cfg) a n b (z : bool) m, mp_ok a -> mp_ok b -> 0 <= n -> n + 2 * LB < 2 ^ UW ->
  m = ct_mul_trunc_cond_mp_mp a n b (choice z) \/ z = true /\ m = ct_mul_trunc_mp_mp a n b ->
  let one_more := nlimbs a * LB < n <= (nlimbs a + 1) * LB /\ mp_len a = nlimbs a * LB /\ kind_of a <> KNE in
  let result := yields m (fun a' => becomes a a' (if z then (mpval a mod 256 ^ n * mpval b) mod 256 ^ mp_len a
                                                  else if mp_len b =? 0 then mpval a else mpval a mod 256 ^ n)) in
  (n <= mp_len a -> result) /\
  (mp_len a < n -> debug c = true -> panics m) /\
  (mp_len a < n -> debug c = false -> mp_len b = 0 \/ n <= nlimbs a * LB \/ one_more -> result) /\
  (mp_len a < n -> debug c = false -> mp_len b <> 0 -> nlimbs a * LB < n -> ~ one_more -> panics m).
Proof. exact @mul_any. Qed.
Print Assumptions C22_mul_any.

(** ** C23: squaring

    The code doubles the high half of each product of two limbs and adds a carry of
    up to 4 to it, taking for granted that the doubled value, reduced modulo the
    limb base, is at most [!3].  It is not if the high half is just below half of
    the limb base. *)

Theorem C23_square_partial : forall (c : cfg) a n, mp_ok a -> 0 <= n <= mp_len a ->
  (let limb i := mpval a mod 256 ^ n / B ^ i mod B in
   forall i j, 0 <= i < j -> limb i * limb j / B <> B / 2 - 1 /\ limb i * limb j / B <> B / 2 - 2) ->
  yields (ct_square_trunc_mp a n) (fun a' =>
    becomes a a' ((mpval a mod 256 ^ n) ^ 2 mod 256 ^ mp_len a)).
Proof. exact square_correct. Qed.
Print Assumptions C23_square_partial.

(** More precisely (SpecMul.v), it depends on what the additions carry over. With debug assertions, this is exactly when
    squaring panics. *)
Theorem C23_square_fine_partial : forall (c : cfg) a n, mp_ok a -> 0 <= n <= mp_len a ->
  square_fine (nlimbs a) (mpval a mod 256 ^ n) ->
  yields (ct_square_trunc_mp a n) (fun a' => becomes a a' ((mpval a mod 256 ^ n) ^ 2 mod 256 ^ mp_len a)).
Proof. exact square_fine_correct. Qed.
Print Assumptions C23_square_fine_partial.

Theorem C23_square_debug_panics : forall (c : cfg) a n, mp_ok a -> 0 <= n <= mp_len a -> debug c = true ->
  (panics (ct_square_trunc_mp a n) <-> ~ square_fine (nlimbs a) (mpval a mod 256 ^ n)).
Proof. exact square_debug_exact. Qed.
Print Assumptions C23_square_debug_panics.

(** Builds without them return the square exactly if [square_right], and something else otherwise. (In the latter case, that the
    losses do not cancel is proved for buffers of fewer limbs than the bytes of the most significant one can count: at least 255,
    and 2^32 - 1 if all limbs are whole.) *)
Theorem C23_square_release_exact : forall (c : cfg) a n, debug c = false -> mp_ok a -> 0 <= n <= mp_len a ->
  let v := mpval a mod 256 ^ n in
  (square_right (nlimbs a) v -> yields (ct_square_trunc_mp a n) (fun a' => becomes a a' (v ^ 2 mod 256 ^ mp_len a))) /\
  (~ square_right (nlimbs a) v -> nlimbs a < 256 ^ (mp_len a - (nlimbs a - 1) * LB) ->
   yields (ct_square_trunc_mp a n) (fun a' => exists w, becomes a a' w /\ w <> v ^ 2 mod 256 ^ mp_len a)).
Proof. exact @square_release_exact. Qed.
Print Assumptions C23_square_release_exact.

(** Both cases exist: the square of the same number goes wrong in a buffer of six limbs of 32 bits, and not in one of five. *)
Example ex_square_release : let c := mkcfg false false true false in
  let a := NE [B - 1; B / 2; B - 1; 0; 0; 0] in let b := NE [B - 1; B / 2; B - 1; 0; 0] in
  mp_ok a /\ mp_ok b /\ ~ square_right (nlimbs a) (mpval a mod 256 ^ 12) /\ nlimbs a < 256 ^ (mp_len a - (nlimbs a - 1) * LB) /\
  square_right (nlimbs b) (mpval b mod 256 ^ 12).
Proof.
  cbv zeta. split; [split; [repeat constructor; vm_compute; congruence|vm_compute; reflexivity]|].
  split; [split; [repeat constructor; vm_compute; congruence|vm_compute; reflexivity]|].
  split. { intros H. specialize (H 2 2). lapply H; [clear H; intros H|lia]. lapply H; [clear H; intros H|vm_compute; reflexivity].
    lapply H; [clear H; intros H|vm_compute; reflexivity]. vm_compute in H. discriminate H. }
  split; [vm_compute; reflexivity|].
  intros j k H1 H2. change (nlimbs _) with 5 in H2.
  assert (H : (j = 1 /\ k = 1) \/ (j = 2 /\ k = 1)) by lia. destruct H as [[-> ->]|[-> ->]]; vm_compute; congruence.
Qed.

(** An [op0_in_len] beyond the end: as in C22_mul_any. *)
Theorem C23_square_any : forall (c : cfg) a n, mp_ok a -> mp_len a < n -> n + 2 * LB < 2 ^ UW ->
  let one_more := nlimbs a * LB < n <= (nlimbs a + 1) * LB /\ mp_len a = nlimbs a * LB /\ kind_of a <> KNE in
  (debug c = true -> panics (ct_square_trunc_mp a n)) /\
  (debug c = false -> n <= nlimbs a * LB \/ one_more -> forall r, returns (ct_square_trunc_mp a n) r <-> returns (ct_square_trunc_mp a (mp_len a)) r) /\
  (debug c = false -> nlimbs a * LB < n -> ~ one_more -> panics (ct_square_trunc_mp a n)).
Proof. exact @square_any. Qed.
Print Assumptions C23_square_any.

(** In particular, squares of single limbs are right. *)
Theorem C23_square_limb : forall (c : cfg) a n, mp_ok a -> 0 <= n <= mp_len a -> mpval a mod 256 ^ n < B ->
  yields (ct_square_trunc_mp a n) (fun a' => becomes a a' ((mpval a mod 256 ^ n) ^ 2 mod 256 ^ mp_len a)).
Proof. exact square_small_correct. Qed.
Print Assumptions C23_square_limb.

(** With debug assertions, squaring 2^(2W-1) + 2^W - 1 panics. *)
Theorem C23_square_debug_refuted : forall (c : cfg), debug c = true ->
  exists a, mp_ok a /\ mp_len a = 4 * LB /\ mpval a < 256 ^ (2 * LB) /\ panics (ct_square_trunc_mp a (2 * LB)).
Proof.
  intros c H. exists (NE [B - 1; B / 2; 0; 0]). revert H. destruct c as [l64 am u64 d]. cbn [debug]. intros ->.
  destruct l64, am, u64;
  (split; [split; [repeat constructor; vm_compute; congruence|vm_compute; reflexivity]|]; split; [vm_compute; reflexivity|]; split; vm_compute; reflexivity).
Qed.
Print Assumptions C23_square_debug_refuted.

(** Without, a carry is lost: the square of (B - 1) B^2 + (B / 2) B + (B - 1) comes out wrong,
    although the buffer is large enough for it. *)
Theorem C23_square_release_refuted : forall (c : cfg), debug c = false ->
  exists a a', mp_ok a /\ mp_len a = 6 * LB /\ mpval a < 256 ^ (3 * LB) /\
    returns (ct_square_trunc_mp a (3 * LB)) a' /\ mpval a' <> (mpval a) ^ 2.
Proof.
  intros [l64 am u64 d] H. cbn in H. subst d.
  destruct l64.
  - exists (NE [2 ^ 64 - 1; 2 ^ 63; 2 ^ 64 - 1; 0; 0; 0]).
    exists (NE [1; 2 ^ 64 - 2; 1; 2 ^ 62 - 3; 2; 2 ^ 64 - 2]).
    destruct am, u64;
    (split; [split; [repeat constructor; vm_compute; congruence|vm_compute; reflexivity]|]; split; [vm_compute; reflexivity|];
     split; [vm_compute; reflexivity|]; split; [vm_compute; reflexivity|vm_compute; discriminate]).
  - exists (NE [2 ^ 32 - 1; 2 ^ 31; 2 ^ 32 - 1; 0; 0; 0]).
    exists (NE [1; 2 ^ 32 - 2; 1; 2 ^ 30 - 3; 2; 2 ^ 32 - 2]).
    destruct am, u64;
    (split; [split; [repeat constructor; vm_compute; congruence|vm_compute; reflexivity]|]; split; [vm_compute; reflexivity|];
     split; [vm_compute; reflexivity|]; split; [vm_compute; reflexivity|vm_compute; discriminate]).
Qed.
Print Assumptions C23_square_release_refuted.

(** ** C24: multiplication by a limb *)

Theorem C24_mul_limb : forall (c : cfg) a n x, mp_ok a -> 0 <= n <= mp_len a -> 0 <= x < B ->
  yields (ct_mul_trunc_mp_l a n x) (fun a' => becomes a a' ((mpval a mod 256 ^ n * x) mod 256 ^ mp_len a)).
Proof. exact mul_l_correct. Qed.
Print Assumptions C24_mul_limb.

(** An [op0_in_len] beyond the end; here the limb behind the last one always makes it panic. *)
Theorem C24_mul_limb_any : forall (c : cfg) a n x, mp_ok a -> mp_len a < n -> n + 2 * LB < 2 ^ UW -> 0 <= x < B ->
  (debug c = true -> panics (ct_mul_trunc_mp_l a n x)) /\
  (debug c = false -> n <= nlimbs a * LB -> yields (ct_mul_trunc_mp_l a n x) (fun a' => becomes a a' ((mpval a * x) mod 256 ^ mp_len a))) /\
  (debug c = false -> nlimbs a * LB < n -> panics (ct_mul_trunc_mp_l a n x)).
Proof. exact @mul_l_any. Qed.
Print Assumptions C24_mul_limb_any.

Example ex_square_any : let c := mkcfg false false true false in let a := LE [7; 0; 0; 1; 9] in let b := BE [0; 0; 1; 3] in
  mp_ok a /\ mp_ok b /\ mp_len a < 8 <= nlimbs a * LB /\ 8 + 2 * LB < 2 ^ UW /\ mp_len b < 8 /\ nlimbs b * LB < 8 <= (nlimbs b + 1) * LB /\ mp_len b = nlimbs b * LB /\
  snd (ct_square_trunc_mp a 8) = Some (LE [49; 0; 0; 14; 126]) /\ snd (ct_square_trunc_mp a 9) = None /\
  snd (ct_square_trunc_mp b 8) = Some (BE [0; 1; 6; 9]) /\ snd (ct_square_trunc_mp b 9) = None /\
  snd (ct_mul_trunc_mp_l a 8 3) = Some (LE [21; 0; 0; 3; 27]) /\ snd (ct_mul_trunc_mp_l b 8 3) = None.
Proof.
  cbv zeta. split; [split; [repeat constructor; vm_compute; congruence|vm_compute; reflexivity]|].
  split; [split; [repeat constructor; vm_compute; congruence|vm_compute; reflexivity]|].
  vm_compute. repeat split; congruence.
Qed.

(** Concrete, non-trivial cases meeting the hypotheses above: a partial high limb, a product
    that gets truncated, and a multi-limb square. *)
Example ex_mul_any : let rel := mkcfg false false true false in let c := mkcfg false false true true in
  let a := BE [9; 1; 2; 3] in let b := LE [2] in
  mp_ok a /\ mp_ok b /\ mp_ok (LE []) /\ 3 + 2 * LB < 2 ^ UW /\ 3 <= mp_len a /\
  snd (ct_mul_trunc_cond_mp_mp a 3 b (choice false)) = Some (BE [0; 1; 2; 3]) /\
  snd (ct_mul_trunc_cond_mp_mp a 3 (LE []) (choice false)) = Some a /\
  snd (ct_mul_trunc_cond_mp_mp a 3 b (choice true)) = Some (BE [0; 2; 4; 6]) /\
  snd (ct_mul_trunc_mp_mp a 7 b) = None /\ snd (@ct_mul_trunc_mp_mp rel a 7 b) = Some (BE [18; 2; 4; 6]) /\
  snd (@ct_mul_trunc_mp_mp rel a 9 b) = None /\ snd (@ct_mul_trunc_mp_mp rel (NE [5]) 7 b) = None /\
  snd (@ct_mul_trunc_mp_mp rel (NE [5]) 7 (LE [])) = Some (NE [0]) /\ snd (@ct_mul_trunc_mp_mp rel (LE [5]) 4 b) = Some (LE [10]).
Proof.
  intros rel c a b.
  repeat (split; [first [split; [repeat constructor; vm_compute; congruence|vm_compute; reflexivity]|vm_compute; congruence|vm_compute; reflexivity]|]).
  vm_compute. reflexivity.
Qed.

Example ex_mul : let c := mkcfg false false true true in
  let a := BE [0; 0; 0; 0x12; 0x34; 0x56; 0x78; 0x9a; 0xbc] in let b := LE [0xff; 0xff; 0xff; 0xff; 0xff] in
  mp_ok a /\ mp_ok b /\ 0 <= 6 <= mp_len a /\ mpval a < 256 ^ 6 /\
  snd (ct_mul_trunc_mp_mp a 6 b) = Some (BE [0x56; 0x78; 0x9a; 0xa9; 0xcb; 0xa9; 0x87; 0x65; 0x44]) /\
  snd (ct_mul_trunc_mp_l a 6 0x1000) = Some (BE [0; 0x01; 0x23; 0x45; 0x67; 0x89; 0xab; 0xc0; 0x00]) /\
  snd (ct_square_trunc_mp a 6) = Some (BE [0xdc; 0x33; 0xf6; 0x8d; 0x27; 0xbd; 0xc6; 0xba; 0x10]).
Proof.
  cbv zeta. split; [split; [repeat constructor; vm_compute; congruence|vm_compute; reflexivity]|].
  split; [split; [repeat constructor; vm_compute; congruence|vm_compute; reflexivity]|].
  split; [vm_compute; split; congruence|]. split; [vm_compute; reflexivity|]. repeat split; vm_compute; reflexivity.
Qed.

(** The condition of [C23_square_partial] holds for this operand of two limbs. *)
Example ex_square : let c := mkcfg false false true true in let A := 0x123456789abc in
  let limb i := A / B ^ i mod B in
  forall i j, 0 <= i < j -> limb i * limb j / B <> B / 2 - 1 /\ limb i * limb j / B <> B / 2 - 2.
Proof.
  cbv zeta. intros i j Hij. set (c := mkcfg false false true true). destruct (Z.eq_dec j 1) as [->|N].
  - replace i with 0 by lia. vm_compute. split; discriminate.
  - assert (E : 0x123456789abc / @B c ^ j = 0).
    { apply Z.div_small. split; [lia|]. apply Z.lt_le_trans with (@B c ^ 2); [vm_compute; reflexivity|]. apply Z.pow_le_mono_r; [vm_compute; reflexivity|lia]. }
    rewrite E. rewrite Z.mod_0_l by (vm_compute; discriminate). rewrite Z.mul_0_r. vm_compute. split; discriminate.
Qed.

(** That of [C23_square_fine_partial] may hold where that of [C23_square_partial] does not: here, the high half of the
    product of the two limbs is B / 2 - 2 and the carry is too small for an assertion to fail. *)
Example ex_square_fine : let c := mkcfg false false true true in let a := NE [B - 3; B / 2; 0; 0] in
  mp_ok a /\ limb_at (mpval a) 0 * limb_at (mpval a) 1 / B = B / 2 - 2 /\ square_fine (nlimbs a) (mpval a mod 256 ^ 8).
Proof.
  cbv zeta. set (c := mkcfg false false true true). split; [split; [repeat constructor; vm_compute; congruence|vm_compute; reflexivity]|].
  split; [vm_compute; reflexivity|]. intros j k Hk Hn. change (nlimbs (NE [B - 3; B / 2; 0; 0])) with 4 in Hn. cbv zeta. cbn [debug c].
  assert (CASES : (j = 1 /\ k = 1) \/ (j = 2 /\ k = 1)) by lia.
  destruct CASES as [(-> & ->)|(-> & ->)]; (split; [vm_compute; discriminate|intros _; vm_compute; discriminate]).
Qed.
