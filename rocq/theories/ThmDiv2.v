(** Theorems about the division of powers of two and of shifted integers:
    properties C26 and C27. The vocabulary is the one of ThmDiv.v. *)
From Coq Require Import ZArith List Bool Lia.
Require Import Verif.Spec Verif.Monad Verif.ModelLimb Verif.ModelBuf Verif.SpecBuf Verif.ModelDiv Verif.SpecDiv Verif.DivProofs2 Verif.DivExact Verif.DivHuge.
Import ListNotations.
Open Scope Z_scope.

(** ** C26: division of a power of two *)

(** 2^k, a number of k / 8 + 1 bytes, is divided. The remainder's buffer need only be as long as the
    shorter one of dividend and divisor. [pow2_exp_ok k] says that the code's own computation of the
    dividend's length does not overflow: k + 9 < 2^UW, or k + 8 < 2^UW without overflow checks. C26_huge_exponent_refuted is on all other k. *)
Theorem C26_div : forall (c : cfg) k r d D n q, 0 <= k -> pow2_exp_ok k -> mp_ok r -> divisor_for d D -> byte_len D n -> q_ok q ->
  let U := 2 ^ k in let len := k / 8 + 1 in
  Z.min n len <= mp_len r -> match q with Some b => len <= mp_len b + n | None => True end -> q_fits q (U / D) ->
  yields (ct_div_pow2_mp k r d q) (fun '(res, r', q') =>
    res = Ok tt /\ becomes r r' (U mod D) /\ o_same q q' /\ q_is q' (U / D)).
Proof. exact pow2_correct. Qed.
Print Assumptions C26_div.

(** Buffers that are too short are refused, all arguments remaining untouched. *)
Theorem C26_div_short : forall (c : cfg) k r d D n b, 0 <= k -> pow2_exp_ok k -> mp_ok r -> divisor_for d D -> byte_len D n -> mp_ok b ->
  mp_len b + n < k / 8 + 1 -> returns (ct_div_pow2_mp k r d (Some b)) (Err InsufficientQuotientSpace, r, Some b).
Proof. exact pow2_short_correct. Qed.
Print Assumptions C26_div_short.

Theorem C26_div_remainder_short : forall (c : cfg) k r d D n q, 0 <= k -> pow2_exp_ok k -> mp_ok r -> divisor_for d D -> byte_len D n -> q_ok q ->
  match q with Some b => k / 8 + 1 <= mp_len b + n | None => True end -> mp_len r < Z.min n (k / 8 + 1) ->
  returns (ct_div_pow2_mp k r d q) (Err InsufficientRemainderSpace, r, q).
Proof. exact pow2_rshort_correct. Qed.
Print Assumptions C26_div_remainder_short.

(** A quotient that does not fit the limbs of its buffer is reported. *)
Theorem C26_div_overflow : forall (c : cfg) k r d D n b, 0 <= k -> pow2_exp_ok k -> mp_ok r -> divisor_for d D -> byte_len D n -> mp_ok b ->
  n <= mp_len r -> B ^ nlimbs b <= 2 ^ k / D ->
  yields (ct_div_pow2_mp k r d (Some b)) (fun '(res, r', q') => res = Err InsufficientQuotientSpace /\ same_shape r r' /\ o_same (Some b) q').
Proof. exact pow2_over_correct. Qed.
Print Assumptions C26_div_overflow.

Theorem C26_mod : forall (c : cfg) k r d D n, 0 <= k -> pow2_exp_ok k -> mp_ok r -> divisor_for d D -> byte_len D n ->
  (Z.min n (k / 8 + 1) <= mp_len r -> yields (ct_mod_pow2_mp k r d) (fun '(res, r') => res = Ok tt /\ becomes r r' (2 ^ k mod D))) /\
  (mp_len r < Z.min n (k / 8 + 1) -> returns (ct_mod_pow2_mp k r d) (Err InsufficientRemainderSpace, r)).
Proof. exact pow2_mod_correct. Qed.
Print Assumptions C26_mod.

(** As with C25, a quotient that fits the limbs of its buffer but not its bytes is not reported: dividing 2^15 by 1 with
    a quotient buffer of one byte panics with debug assertions, and without yields the quotient 0. *)
Theorem C26_div_debug_refuted : forall (c : cfg), debug c = true ->
  exists k r v b d, mp_ok r /\ mp_ok v /\ mp_ok b /\ returns (mp_divisor_new v None) (Ok d) /\ k / 8 + 1 <= mp_len b + mp_len v /\ mp_len v <= mp_len r /\
    256 ^ mp_len b <= 2 ^ k / mpval v /\ panics (ct_div_pow2_mp k r d (Some b)).
Proof.
  intros c H. exists 15, (BE [0]), (BE [1]), (BE [0]). revert H. destruct c as [l64 am u64 d]. cbn [debug]. intros ->. destruct l64, am, u64;
  (eexists; split; [split; [repeat constructor; vm_compute; congruence|vm_compute; reflexivity]|];
   split; [split; [repeat constructor; vm_compute; congruence|vm_compute; reflexivity]|];
   split; [split; [repeat constructor; vm_compute; congruence|vm_compute; reflexivity]|];
   split; [vm_compute; reflexivity|]; split; [vm_compute; congruence|]; split; [vm_compute; congruence|]; split; [vm_compute; congruence|vm_compute; reflexivity]).
Qed.
Print Assumptions C26_div_debug_refuted.

Theorem C26_div_release_refuted : forall (c : cfg), debug c = false ->
  exists k r v b d r' q', mp_ok r /\ mp_ok v /\ mp_ok b /\ returns (mp_divisor_new v None) (Ok d) /\ k / 8 + 1 <= mp_len b + mp_len v /\ mp_len v <= mp_len r /\
    returns (ct_div_pow2_mp k r d (Some b)) (Ok tt, r', Some q') /\ mpval q' <> 2 ^ k / mpval v.
Proof.
  intros c H. exists 15, (BE [0]), (BE [1]), (BE [0]). revert H. destruct c as [l64 am u64 d]. cbn [debug]. intros ->. destruct l64, am, u64;
  (eexists; exists (BE [0]), (BE [0]); split; [split; [repeat constructor; vm_compute; congruence|vm_compute; reflexivity]|];
   split; [split; [repeat constructor; vm_compute; congruence|vm_compute; reflexivity]|];
   split; [split; [repeat constructor; vm_compute; congruence|vm_compute; reflexivity]|];
   split; [vm_compute; reflexivity|]; split; [vm_compute; congruence|]; split; [vm_compute; congruence|]; split; [vm_compute; reflexivity|vm_compute; congruence]).
Qed.
Print Assumptions C26_div_release_refuted.

(** This is so for all quotients that fit the limbs of their buffer but not its bytes. *)
Theorem C26_div_middle : forall (c : cfg) k r d D n b, 0 <= k -> pow2_exp_ok k -> mp_ok r -> divisor_for d D -> byte_len D n -> mp_ok b ->
  let U := 2 ^ k in let len := k / 8 + 1 in
  Z.min n len <= mp_len r -> len <= mp_len b + n -> 256 ^ mp_len b <= U / D < B ^ nlimbs b ->
  (debug c = true -> panics (ct_div_pow2_mp k r d (Some b))) /\
  (debug c = false -> yields (ct_div_pow2_mp k r d (Some b)) (fun '(res, r', q') =>
    res = Ok tt /\ becomes r r' (U mod D) /\ o_same (Some b) q' /\ q_is q' ((U / D) mod 256 ^ mp_len b))).
Proof. exact pow2_middle. Qed.
Print Assumptions C26_div_middle.

(** 2^39 / (2^31 - 1) = 256 remainder 256, with a quotient buffer of one byte. *)
Example ex_div_pow2_middle : let c := mkcfg false false true false in
  let r := BE [1; 1; 1; 1] in let v := LE [0xff; 0xff; 0xff; 0x7f] in let q := LE [7] in
  mp_ok r /\ mp_ok v /\ byte_len (mpval v) 4 /\ mp_ok q /\ Z.min 4 (39 / 8 + 1) <= mp_len r /\ 39 / 8 + 1 <= mp_len q + 4 /\
  256 ^ mp_len q <= 2 ^ 39 / mpval v < B ^ nlimbs q /\
  exists d, returns (mp_divisor_new v None) (Ok d) /\
  snd (ct_div_pow2_mp 39 r d (Some q)) = Some (Ok tt, BE [0; 0; 1; 0], Some (LE [0])).
Proof.
  cbv zeta. split; [split; [repeat constructor; vm_compute; congruence|vm_compute; reflexivity]|].
  split; [split; [repeat constructor; vm_compute; congruence|vm_compute; reflexivity]|].
  split; [split; [lia|]; split; vm_compute; congruence|].
  split; [split; [repeat constructor; vm_compute; congruence|vm_compute; reflexivity]|].
  split; [vm_compute; congruence|]. split; [vm_compute; congruence|]. split; [split; vm_compute; congruence|].
  eexists. split; [vm_compute; reflexivity|]. vm_compute. reflexivity.
Qed.

(** A concrete case meeting the hypotheses: 2^100 / (2^63 + 2^31 - 1) with 32 bit limbs. *)
Example ex_div_pow2 : let c := mkcfg false false true true in
  let r := BE [1; 1; 1; 1; 1; 1; 1; 1; 1] in let v := LE [0xff; 0xff; 0xff; 0x7f; 0; 0; 0; 0x80] in let q := NE [7; 7] in
  mp_ok r /\ mp_ok v /\ byte_len (mpval v) 8 /\ mp_ok q /\ Z.min 8 (100 / 8 + 1) <= mp_len r /\ 100 / 8 + 1 <= mp_len q + 8 /\
  q_fits (Some q) (2 ^ 100 / mpval v) /\
  exists d, returns (mp_divisor_new v None) (Ok d) /\
  snd (ct_div_pow2_mp 100 r d (Some q)) = Some (Ok tt, BE [0; 0; 0; 0; 0x2f; 0xff; 0xff; 0xff; 0xe0], Some (NE [0xffffffe0; 0x1f])).
Proof.
  cbv zeta. split; [split; [repeat constructor; vm_compute; congruence|vm_compute; reflexivity]|].
  split; [split; [repeat constructor; vm_compute; congruence|vm_compute; reflexivity]|].
  split; [split; [lia|]; split; vm_compute; congruence|].
  split; [split; [repeat constructor; vm_compute; congruence|vm_compute; reflexivity]|].
  split; [vm_compute; congruence|]. split; [vm_compute; congruence|]. split; [vm_compute; reflexivity|].
  eexists. split; [vm_compute; reflexivity|]. vm_compute. reflexivity.
Qed.

(** The eight (with overflow checks: nine) largest exponents make the code panic, whatever the buffers: with overflow checks at
    the overflow, without because the length wraps to 0 and the power is then stored at the limb index 0 - 1. No memory of that
    size is needed to get there. *)
Theorem C26_huge_exponent_refuted : forall (c : cfg) k r d D n q, 0 <= k < 2 ^ UW -> ~ pow2_exp_ok k -> mp_ok r -> divisor_for d D -> byte_len D n -> q_ok q ->
  panics (ct_div_pow2_mp k r d q) /\ panics (ct_mod_pow2_mp k r d).
Proof. exact pow2_huge. Qed.
Print Assumptions C26_huge_exponent_refuted.

(** The two kinds of builds differ on k = 2^UW - 9. *)
Example ex_pow2_exp : let k := 2 ^ 32 - 9 in
  @pow2_exp_ok (mkcfg false false false false) k /\ ~ @pow2_exp_ok (mkcfg false false false true) k /\
  ~ @pow2_exp_ok (mkcfg false false false false) (k + 1) /\ k + 1 < 2 ^ 32.
Proof. cbv zeta. unfold pow2_exp_ok, UW. cbn [usize64 debug]. change (2 ^ 32) with 4294967296. intuition lia. Qed.

(** ** C27: division of a shifted integer *)

(** The integer held by the [a] low bytes of [u], all others being zero, times 256^e is divided. The remainder goes to [u]. *)
Theorem C27_div : forall (c : cfg) u a e d D n q, mp_ok u -> 0 <= a <= mp_len u -> mpval u < 256 ^ a -> 0 <= e -> a + e + LB < 2 ^ UW ->
  divisor_for d D -> byte_len D n -> q_ok q ->
  let U := mpval u * 256 ^ e in
  Z.min n (a + e) <= mp_len u -> match q with Some b => a + e <= mp_len b + n | None => True end -> q_fits q (U / D) ->
  yields (ct_div_lshifted_mp_mp u a e d q) (fun '(res, u', q') =>
    res = Ok tt /\ becomes u u' (U mod D) /\ o_same q q' /\ q_is q' (U / D)).
Proof. exact lsh_correct. Qed.
Print Assumptions C27_div.

Theorem C27_div_short : forall (c : cfg) u a e d D n b, mp_ok u -> 0 <= a <= mp_len u -> mpval u < 256 ^ a -> 0 <= e -> a + e + LB < 2 ^ UW ->
  divisor_for d D -> byte_len D n -> mp_ok b -> mp_len b + n < a + e ->
  returns (ct_div_lshifted_mp_mp u a e d (Some b)) (Err InsufficientQuotientSpace, u, Some b).
Proof. exact lsh_short_correct. Qed.
Print Assumptions C27_div_short.

Theorem C27_div_remainder_short : forall (c : cfg) u a e d D n q, mp_ok u -> 0 <= a <= mp_len u -> mpval u < 256 ^ a -> 0 <= e -> a + e + LB < 2 ^ UW ->
  divisor_for d D -> byte_len D n -> q_ok q ->
  match q with Some b => a + e <= mp_len b + n | None => True end -> mp_len u < Z.min n (a + e) ->
  returns (ct_div_lshifted_mp_mp u a e d q) (Err InsufficientRemainderSpace, u, q).
Proof. exact lsh_rshort_correct. Qed.
Print Assumptions C27_div_remainder_short.

Theorem C27_div_overflow : forall (c : cfg) u a e d D n b, mp_ok u -> 0 <= a <= mp_len u -> mpval u < 256 ^ a -> 0 <= e -> a + e + LB < 2 ^ UW ->
  divisor_for d D -> byte_len D n -> mp_ok b -> n <= mp_len u -> B ^ nlimbs b <= mpval u * 256 ^ e / D ->
  yields (ct_div_lshifted_mp_mp u a e d (Some b)) (fun '(res, u', q') => res = Err InsufficientQuotientSpace /\ same_shape u u' /\ o_same (Some b) q').
Proof. exact lsh_over_correct. Qed.
Print Assumptions C27_div_overflow.

Theorem C27_mod : forall (c : cfg) u a e d D n, mp_ok u -> 0 <= a <= mp_len u -> mpval u < 256 ^ a -> 0 <= e -> a + e + LB < 2 ^ UW ->
  divisor_for d D -> byte_len D n ->
  (Z.min n (a + e) <= mp_len u -> yields (ct_mod_lshifted_mp_mp u a e d) (fun '(res, u') => res = Ok tt /\ becomes u u' ((mpval u * 256 ^ e) mod D))) /\
  (mp_len u < Z.min n (a + e) -> returns (ct_mod_lshifted_mp_mp u a e d) (Err InsufficientRemainderSpace, u)).
Proof. exact lsh_mod_correct. Qed.
Print Assumptions C27_mod.

(** The quotient that fits the limbs of its buffer but not its bytes again: 0x80 * 256 divided by 1. *)
Theorem C27_div_debug_refuted : forall (c : cfg), debug c = true ->
  exists u a e v b d, mp_ok u /\ mp_ok v /\ mp_ok b /\ returns (mp_divisor_new v None) (Ok d) /\ a = mp_len u /\ a + e <= mp_len b + mp_len v /\ mp_len v <= mp_len u /\
    256 ^ mp_len b <= mpval u * 256 ^ e / mpval v /\ panics (ct_div_lshifted_mp_mp u a e d (Some b)).
Proof.
  intros c H. exists (BE [0x80]), 1, 1, (BE [1]), (BE [0]). revert H. destruct c as [l64 am u64 d]. cbn [debug]. intros ->. destruct l64, am, u64;
  (eexists; split; [split; [repeat constructor; vm_compute; congruence|vm_compute; reflexivity]|];
   split; [split; [repeat constructor; vm_compute; congruence|vm_compute; reflexivity]|];
   split; [split; [repeat constructor; vm_compute; congruence|vm_compute; reflexivity]|];
   split; [vm_compute; reflexivity|]; split; [vm_compute; reflexivity|]; split; [vm_compute; congruence|]; split; [vm_compute; congruence|]; split; [vm_compute; congruence|vm_compute; reflexivity]).
Qed.
Print Assumptions C27_div_debug_refuted.

Theorem C27_div_release_refuted : forall (c : cfg), debug c = false ->
  exists u a e v b d u' q', mp_ok u /\ mp_ok v /\ mp_ok b /\ returns (mp_divisor_new v None) (Ok d) /\ a = mp_len u /\ a + e <= mp_len b + mp_len v /\ mp_len v <= mp_len u /\
    returns (ct_div_lshifted_mp_mp u a e d (Some b)) (Ok tt, u', Some q') /\ mpval q' <> mpval u * 256 ^ e / mpval v.
Proof.
  intros c H. exists (BE [0x80]), 1, 1, (BE [1]), (BE [0]). revert H. destruct c as [l64 am u64 d]. cbn [debug]. intros ->. destruct l64, am, u64;
  (eexists; exists (BE [0]), (BE [0]); split; [split; [repeat constructor; vm_compute; congruence|vm_compute; reflexivity]|];
   split; [split; [repeat constructor; vm_compute; congruence|vm_compute; reflexivity]|];
   split; [split; [repeat constructor; vm_compute; congruence|vm_compute; reflexivity]|];
   split; [vm_compute; reflexivity|]; split; [vm_compute; reflexivity|]; split; [vm_compute; congruence|]; split; [vm_compute; congruence|]; split; [vm_compute; reflexivity|vm_compute; congruence]).
Qed.
Print Assumptions C27_div_release_refuted.

Theorem C27_div_middle : forall (c : cfg) u a e d D n b, mp_ok u -> 0 <= a <= mp_len u -> mpval u < 256 ^ a -> 0 <= e -> a + e + LB < 2 ^ UW ->
  divisor_for d D -> byte_len D n -> mp_ok b ->
  let U := mpval u * 256 ^ e in
  Z.min n (a + e) <= mp_len u -> a + e <= mp_len b + n -> 256 ^ mp_len b <= U / D < B ^ nlimbs b ->
  (debug c = true -> panics (ct_div_lshifted_mp_mp u a e d (Some b))) /\
  (debug c = false -> yields (ct_div_lshifted_mp_mp u a e d (Some b)) (fun '(res, u', q') =>
    res = Ok tt /\ becomes u u' (U mod D) /\ o_same (Some b) q' /\ q_is q' ((U / D) mod 256 ^ mp_len b))).
Proof. exact lsh_middle. Qed.
Print Assumptions C27_div_middle.

(** 0x1234 * 256^3 / (2^24 + 1) with a quotient buffer of one byte: 0x1233, remainder 2^24 - 0x1233. *)
Example ex_div_lsh_middle : let c := mkcfg false false true false in
  let u := BE [0; 0; 0x12; 0x34] in let v := LE [1; 0; 0; 1] in let q := LE [7] in
  mp_ok u /\ 0 <= 2 <= mp_len u /\ mpval u < 256 ^ 2 /\ mp_ok v /\ byte_len (mpval v) 4 /\ mp_ok q /\
  Z.min 4 (2 + 3) <= mp_len u /\ 2 + 3 <= mp_len q + 4 /\ 256 ^ mp_len q <= mpval u * 256 ^ 3 / mpval v < B ^ nlimbs q /\
  exists d, returns (mp_divisor_new v None) (Ok d) /\
  snd (ct_div_lshifted_mp_mp u 2 3 d (Some q)) = Some (Ok tt, BE [0; 0xff; 0xed; 0xcd], Some (LE [0x33])).
Proof.
  cbv zeta. split; [split; [repeat constructor; vm_compute; congruence|vm_compute; reflexivity]|].
  split; [vm_compute; split; congruence|]. split; [vm_compute; reflexivity|].
  split; [split; [repeat constructor; vm_compute; congruence|vm_compute; reflexivity]|].
  split; [split; [lia|]; split; vm_compute; congruence|].
  split; [split; [repeat constructor; vm_compute; congruence|vm_compute; reflexivity]|].
  split; [vm_compute; congruence|]. split; [vm_compute; congruence|]. split; [split; vm_compute; congruence|].
  eexists. split; [vm_compute; reflexivity|]. vm_compute. reflexivity.
Qed.

(** A concrete case meeting the hypotheses: 0x0102030405 * 256^9 / (2^63 + 2^31 - 1) with 32 bit limbs. *)
Example ex_div_lshifted : let c := mkcfg false false true true in
  let u := BE [0; 0; 0; 0; 1; 2; 3; 4; 5] in let v := LE [0xff; 0xff; 0xff; 0x7f; 0; 0; 0; 0x80] in let q := NE [7; 7] in
  mp_ok u /\ mpval u < 256 ^ 5 /\ mp_ok v /\ byte_len (mpval v) 8 /\ mp_ok q /\ Z.min 8 (5 + 9) <= mp_len u /\ 5 + 9 <= mp_len q + 8 /\
  q_fits (Some q) (mpval u * 256 ^ 9 / mpval v) /\
  exists d, returns (mp_divisor_new v None) (Ok d) /\
  match snd (ct_div_lshifted_mp_mp u 5 9 d (Some q)) with
  | Some (Ok _, u', Some q') => mpval u' = mpval u * 256 ^ 9 mod mpval v /\ mpval q' = mpval u * 256 ^ 9 / mpval v /\ mpval q' <> 0
  | _ => False
  end.
Proof.
  cbv zeta. split; [split; [repeat constructor; vm_compute; congruence|vm_compute; reflexivity]|].
  split; [vm_compute; reflexivity|].
  split; [split; [repeat constructor; vm_compute; congruence|vm_compute; reflexivity]|].
  split; [split; [lia|]; split; vm_compute; congruence|].
  split; [split; [repeat constructor; vm_compute; congruence|vm_compute; reflexivity]|].
  split; [vm_compute; congruence|]. split; [vm_compute; congruence|]. split; [vm_compute; reflexivity|].
  eexists. split; [vm_compute; reflexivity|]. vm_compute. split; [reflexivity|split; [reflexivity|congruence]].
Qed.

(** Shift lengths which, added to the dividend's length, overflow: a panic with overflow checks. Without, the length wraps, and if
    less than the divisor's is left of it, zero is returned as both quotient and remainder. *)
Theorem C27_huge_shift_debug : forall (c : cfg) u a e d q, debug c = true -> 2 ^ UW <= a + e ->
  panics (ct_div_lshifted_mp_mp u a e d q) /\ panics (ct_mod_lshifted_mp_mp u a e d).
Proof. exact lsh_huge_debug. Qed.
Print Assumptions C27_huge_shift_debug.

Theorem C27_huge_shift_release : forall (c : cfg) u a e d D n q, debug c = false ->
  mp_ok u -> 0 <= a <= mp_len u -> 0 <= e < 2 ^ UW -> 2 ^ UW <= a + e -> divisor_for d D -> byte_len D n -> q_ok q -> a + e - 2 ^ UW < n ->
  yields (ct_mod_lshifted_mp_mp u a e d) (fun '(res, u') => res = Ok tt /\ becomes u u' 0) /\
  (match q with Some b => a + e - 2 ^ UW <= mp_len b + n | None => True end ->
   yields (ct_div_lshifted_mp_mp u a e d q) (fun '(res, u', q') => res = Ok tt /\ becomes u u' 0 /\ o_same q q' /\ q_is q' 0)).
Proof. exact lsh_huge_release. Qed.
Print Assumptions C27_huge_shift_release.

(** Which is wrong, for instance, for 1 * 256^e modulo 3. *)
Theorem C27_huge_shift_refuted : forall (c : cfg), debug c = false ->
  exists u a e v d u', mp_ok u /\ mp_ok v /\ a = mp_len u /\ 0 <= e < 2 ^ UW /\ returns (mp_divisor_new v None) (Ok d) /\
    returns (ct_mod_lshifted_mp_mp u a e d) (Ok tt, u') /\ mpval u' <> (mpval u * 256 ^ e) mod mpval v.
Proof. exact lsh_huge_refuted. Qed.
Print Assumptions C27_huge_shift_refuted.
