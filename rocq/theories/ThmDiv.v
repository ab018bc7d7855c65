(** Theorems about division: properties C25 and C28.

    Vocabulary (SpecDiv.v): [divisor_for d D]: [d] is a CtMpDivisor, as returned by
    its constructor, for the integer [D]; [uval u_h u_l]: the dividend;
    [byte_len D n]: [D] has exactly [n] bytes; [q_fits q x]: the quotient buffer, if
    there is one, has room for [x]; [q_is q x]: it holds [x]; [o_same]: presence,
    encoding and length are preserved. *)
From Coq Require Import ZArith List Bool Lia.
Require Import Verif.Spec Verif.Monad Verif.ModelLimb Verif.ModelBuf Verif.SpecBuf Verif.ModelDiv Verif.SpecDiv Verif.DivProofs Verif.DivPanic Verif.DivExact.
Import ListNotations.
Open Scope Z_scope.

(** ** C25: long division *)

(** The constructor succeeds for a positive divisor, and reports a zero or negative one. *)
Theorem C25_new : forall (c : cfg) v dec, mp_ok v -> 0 <= dec_val dec < B ->
  (0 < mpval v - dec_val dec -> exists d, returns (mp_divisor_new v dec) (Ok d)) /\
  (mpval v - dec_val dec <= 0 -> (dec = None -> mp_len v = 0) -> returns (mp_divisor_new v dec) (Err DivisorIsZero)).
Proof. exact new_correct. Qed.
Print Assumptions C25_new.

(** It never succeeds for a divisor that is not positive. *)
Theorem C25_new_sound : forall (c : cfg) v dec d, mp_ok v -> 0 <= dec_val dec < B ->
  returns (mp_divisor_new v dec) (Ok d) -> 0 < mpval v - dec_val dec.
Proof. exact new_sound. Qed.
Print Assumptions C25_new_sound.

(** But for a zero divisor without a decrement it panics instead of returning the error. *)
Theorem C25_new_zero_refuted : forall (c : cfg), exists v, mp_ok v /\ mpval v = 0 /\ panics (mp_divisor_new v None).
Proof.
  intros c. exists (NE [0]). destruct c as [l64 am u64 d]. destruct l64, am, u64, d;
  (split; [split; [repeat constructor; vm_compute; congruence|vm_compute; reflexivity]|]; split; vm_compute; reflexivity).
Qed.
Print Assumptions C25_new_zero_refuted.

(** This is so for every divisor of zero of at least one byte. *)
Theorem C25_new_zero : forall (c : cfg) v, mp_ok v -> 0 < mp_len v -> mpval v = 0 -> panics (mp_divisor_new v None).
Proof. exact new_zero. Qed.
Print Assumptions C25_new_zero.

(** The division proper: without a quotient buffer, or with one that is not shorter than
    the length of the dividend less the one of the divisor and which the quotient fits. *)
Theorem C25_div : forall (c : cfg) u_h u_l d D n q, u_ok u_h u_l -> divisor_for d D -> byte_len D n -> q_ok q ->
  let U := uval u_h u_l in
  match q with Some b => mp_len u_l + uhlen u_h <= mp_len b + n | None => True end -> q_fits q (U / D) ->
  yields (ct_div_mp_mp u_h u_l d q) (fun '(res, u_h', u_l', q') =>
    res = Ok tt /\ u_ok u_h' u_l' /\ same_shape u_l u_l' /\ o_same u_h u_h' /\ o_same q q' /\
    uval u_h' u_l' = U mod D /\ q_is q' (U / D)).
Proof. exact div_correct. Qed.
Print Assumptions C25_div.

(** A quotient buffer that is too short for the length of the dividend is refused,
    all arguments remaining untouched. *)
Theorem C25_div_short : forall (c : cfg) u_h u_l d D n b, u_ok u_h u_l -> divisor_for d D -> byte_len D n -> mp_ok b ->
  mp_len b + n < mp_len u_l + uhlen u_h ->
  returns (ct_div_mp_mp u_h u_l d (Some b)) (Err InsufficientQuotientSpace, u_h, u_l, Some b).
Proof. exact div_short_correct. Qed.
Print Assumptions C25_div_short.

(** A quotient that does not fit the limbs of its buffer is reported. *)
Theorem C25_div_overflow : forall (c : cfg) u_h u_l d D b, u_ok u_h u_l -> divisor_for d D -> mp_ok b ->
  B ^ nlimbs b <= uval u_h u_l / D ->
  yields (ct_div_mp_mp u_h u_l d (Some b)) (fun '(res, u_h', u_l', q') =>
    res = Err InsufficientQuotientSpace /\ same_shape u_l u_l' /\ o_same u_h u_h' /\ o_same (Some b) q').
Proof. exact div_over_correct. Qed.
Print Assumptions C25_div_overflow.

(** But one that does not fit the buffer, whose length is not a multiple of the limb size, is
    not: division of 0xffff by 1 with a quotient buffer of one byte panics if debug
    assertions are on, and yields the quotient 0xff as a success if they are off. *)
Theorem C25_div_debug_refuted : forall (c : cfg), debug c = true ->
  exists u v b d, mp_ok u /\ mp_ok v /\ mp_ok b /\ returns (mp_divisor_new v None) (Ok d) /\ mp_len u <= mp_len b + mp_len v /\
    256 ^ mp_len b <= mpval u / mpval v /\ panics (ct_div_mp_mp None u d (Some b)).
Proof.
  intros c H. exists (BE [255; 255]), (BE [1]), (BE [0]). revert H. destruct c as [l64 am u64 d]. cbn [debug]. intros ->. destruct l64, am, u64;
  (eexists; split; [split; [repeat constructor; vm_compute; congruence|vm_compute; reflexivity]|];
   split; [split; [repeat constructor; vm_compute; congruence|vm_compute; reflexivity]|];
   split; [split; [repeat constructor; vm_compute; congruence|vm_compute; reflexivity]|];
   split; [vm_compute; reflexivity|]; split; [vm_compute; congruence|]; split; [vm_compute; congruence|vm_compute; reflexivity]).
Qed.
Print Assumptions C25_div_debug_refuted.

Theorem C25_div_release_refuted : forall (c : cfg), debug c = false ->
  exists u v b d u' q', mp_ok u /\ mp_ok v /\ mp_ok b /\ returns (mp_divisor_new v None) (Ok d) /\ mp_len u <= mp_len b + mp_len v /\
    returns (ct_div_mp_mp None u d (Some b)) (Ok tt, None, u', Some q') /\ mpval q' <> mpval u / mpval v.
Proof.
  intros c H. exists (BE [255; 255]), (BE [1]), (BE [0]). revert H. destruct c as [l64 am u64 d]. cbn [debug]. intros ->. destruct l64, am, u64;
  (eexists; exists (BE [0; 0]), (BE [255]); split; [split; [repeat constructor; vm_compute; congruence|vm_compute; reflexivity]|];
   split; [split; [repeat constructor; vm_compute; congruence|vm_compute; reflexivity]|];
   split; [split; [repeat constructor; vm_compute; congruence|vm_compute; reflexivity]|];
   split; [vm_compute; reflexivity|]; split; [vm_compute; congruence|]; split; [vm_compute; reflexivity|vm_compute; congruence]).
Qed.
Print Assumptions C25_div_release_refuted.

(** These two cases are typical: whenever the quotient fits the limbs of its buffer, but not the bytes, the function
    panics with debug assertions, and without them reports success, with the remainder right and the quotient reduced
    modulo 256^length. Together with C25_div, C25_div_short and C25_div_overflow this covers all cases. *)
Theorem C25_div_middle : forall (c : cfg) u_h u_l d D n b, u_ok u_h u_l -> divisor_for d D -> byte_len D n -> mp_ok b ->
  let U := uval u_h u_l in mp_len u_l + uhlen u_h <= mp_len b + n -> 256 ^ mp_len b <= U / D < B ^ nlimbs b ->
  (debug c = true -> panics (ct_div_mp_mp u_h u_l d (Some b))) /\
  (debug c = false -> yields (ct_div_mp_mp u_h u_l d (Some b)) (fun '(res, u_h', u_l', q') =>
    res = Ok tt /\ u_ok u_h' u_l' /\ same_shape u_l u_l' /\ o_same u_h u_h' /\ o_same (Some b) q' /\
    uval u_h' u_l' = U mod D /\ q_is q' ((U / D) mod 256 ^ mp_len b))).
Proof. exact div_middle. Qed.
Print Assumptions C25_div_middle.

(** A concrete case: 0x123456789a / 2^24 with 32 bit limbs and a buffer of one byte for the quotient 0x1234. *)
Example ex_div_middle : let c := mkcfg false false true false in
  let u := BE [0x12; 0x34; 0x56; 0x78; 0x9a] in let v := LE [0; 0; 0; 1] in let q := BE [7] in
  u_ok None u /\ mp_ok v /\ byte_len (mpval v) 4 /\ mp_ok q /\ mp_len u + uhlen None <= mp_len q + 4 /\
  256 ^ mp_len q <= uval None u / mpval v < B ^ nlimbs q /\
  exists d, returns (mp_divisor_new v None) (Ok d) /\
  snd (ct_div_mp_mp None u d (Some q)) = Some (Ok tt, None, BE [0; 0; 0x56; 0x78; 0x9a], Some (BE [0x34])).
Proof.
  cbv zeta. split; [split; [split; [repeat constructor; vm_compute; congruence|vm_compute; reflexivity]|exact I]|].
  split; [split; [repeat constructor; vm_compute; congruence|vm_compute; reflexivity]|].
  split; [split; [lia|]; split; vm_compute; congruence|].
  split; [split; [repeat constructor; vm_compute; congruence|vm_compute; reflexivity]|].
  split; [vm_compute; congruence|]. split; [split; vm_compute; congruence|].
  eexists. split; [vm_compute; reflexivity|]. vm_compute. reflexivity.
Qed.

Theorem C25_mod : forall (c : cfg) u_h u_l d D, u_ok u_h u_l -> divisor_for d D ->
  yields (ct_mod_mp_mp u_h u_l d) (fun '(u_h', u_l') =>
    u_ok u_h' u_l' /\ same_shape u_l u_l' /\ o_same u_h u_h' /\ uval u_h' u_l' = uval u_h u_l mod D).
Proof. exact mod_correct. Qed.
Print Assumptions C25_mod.

(** A concrete case meeting the hypotheses: (2^95 + 2^64 - 1) / (2^63 + 2^31 - 1) with 32 bit limbs, each
    argument in another encoding, the dividend in two parts. *)
Example ex_div : let c := mkcfg false false true true in
  let u_l := BE [0xff; 0xff; 0xff; 0xff; 0xff; 0xff; 0xff; 0xff] in let u_h := BE [0x80; 0; 0; 0] in
  let v := LE [0xff; 0xff; 0xff; 0x7f; 0; 0; 0; 0x80] in let q := NE [7; 7] in
  u_ok (Some u_h) u_l /\ mp_ok v /\ byte_len (mpval v) 8 /\ mp_ok q /\
  mp_len u_l + uhlen (Some u_h) <= mp_len q + 8 /\ q_fits (Some q) (uval (Some u_h) u_l / mpval v) /\
  exists d, returns (mp_divisor_new v None) (Ok d) /\
  snd (ct_div_mp_mp (Some u_h) u_l d (Some q)) =
    Some (Ok tt, Some (BE [0; 0; 0; 0]), BE [0x0; 0x0; 0x0; 0x0; 0x80; 0x0; 0x0; 0x0], Some (NE [1; 1])).
Proof.
  cbv zeta. split; [split; [split; [repeat constructor; vm_compute; congruence|vm_compute; reflexivity]|
    split; [split; [repeat constructor; vm_compute; congruence|vm_compute; reflexivity]|reflexivity]]|].
  split; [split; [repeat constructor; vm_compute; congruence|vm_compute; reflexivity]|].
  split; [split; [lia|]; split; vm_compute; congruence|].
  split; [split; [repeat constructor; vm_compute; congruence|vm_compute; reflexivity]|].
  split; [vm_compute; congruence|]. split; [vm_compute; reflexivity|].
  eexists. split; [vm_compute; reflexivity|]. vm_compute. reflexivity.
Qed.

(** ** C28: division by a limb *)

(** The quotient buffer, if there is one, must not be shorter than the quotient can be, judging from the
    lengths of dividend and divisor, and must have as many limbs as the dividend. *)
Theorem C28_div_partial : forall (c : cfg) u d v n q, mp_ok u -> limb_divisor_for d v -> byte_len v n -> q_ok q -> 1 <= mp_len u ->
  match q with Some b => mp_len u + 1 <= mp_len b + n /\ nlimbs u <= nlimbs b | None => True end ->
  yields (ct_div_mp_l u d q) (fun '(res, q') =>
    res = Ok (mpval u mod v) /\ o_same q q' /\ q_is q' (mpval u / v)).
Proof. exact div_l_correct. Qed.
Print Assumptions C28_div_partial.

Theorem C28_div_short : forall (c : cfg) u d v n b, mp_ok u -> limb_divisor_for d v -> byte_len v n -> mp_ok b -> 1 <= mp_len u ->
  mp_len b + n < mp_len u + 1 -> returns (ct_div_mp_l u d (Some b)) (Err InsufficientQuotientSpace, Some b).
Proof. exact div_l_short_correct. Qed.
Print Assumptions C28_div_short.

(** With fewer limbs than the dividend, the buffer passes the length check, but the function panics. *)
Theorem C28_div_limbs_refuted : forall (c : cfg), exists u d v n b, mp_ok u /\ limb_divisor_for d v /\ byte_len v n /\ mp_ok b /\
  mp_len u + 1 <= mp_len b + n /\ mpval u / v < 256 ^ mp_len b /\ panics (ct_div_mp_l u d (Some b)).
Proof.
  intros c. destruct c as [l64 am u64 d]. destruct l64.
  - destruct am, u64, d; (exists (BE [1; 0; 0; 0; 0; 0; 0; 0; 1]); eexists; exists (2 ^ 63), 8, (BE [0; 0]);
    split; [split; [repeat constructor; vm_compute; congruence|vm_compute; reflexivity]|];
    split; [split; [split; vm_compute; congruence|vm_compute; reflexivity]|];
    split; [split; [|split]; vm_compute; congruence|];
    split; [split; [repeat constructor; vm_compute; congruence|vm_compute; reflexivity]|];
    split; [vm_compute; congruence|]; split; vm_compute; reflexivity).
  - destruct am, u64, d; (exists (BE [1; 0; 0; 0; 1]); eexists; exists (2 ^ 31), 4, (BE [0; 0]);
    split; [split; [repeat constructor; vm_compute; congruence|vm_compute; reflexivity]|];
    split; [split; [split; vm_compute; congruence|vm_compute; reflexivity]|];
    split; [split; [|split]; vm_compute; congruence|];
    split; [split; [repeat constructor; vm_compute; congruence|vm_compute; reflexivity]|];
    split; [vm_compute; congruence|]; split; vm_compute; reflexivity).
Qed.
Print Assumptions C28_div_limbs_refuted.

(** Exactly when: of the buffers which pass the length check, those work which have the dividend's number of limbs, or are
    not written to limb by limb since the dividend is shorter than the divisor, or end exactly at the limb in excess,
    which is zero (for a little-endian buffer in builds without debug assertions only). All others make the function panic. *)
Theorem C28_div_limbs : forall (c : cfg) u d v n b, mp_ok u -> limb_divisor_for d v -> byte_len v n -> mp_ok b -> 1 <= mp_len u ->
  mp_len u + 1 <= mp_len b + n ->
  let works := nlimbs u <= nlimbs b \/ mp_len u < n \/ mp_len b = (nlimbs u - 1) * LB /\ (kind_of b = KBE \/ kind_of b = KLE /\ debug c = false) in
  (works -> yields (ct_div_mp_l u d (Some b)) (fun '(res, q') =>
     res = Ok (mpval u mod v) /\ o_same (Some b) q' /\ q_is q' (mpval u / v))) /\
  (~ works -> panics (ct_div_mp_l u d (Some b))).
Proof. exact div_l_exact. Qed.
Print Assumptions C28_div_limbs.

(** The three ways to work: a buffer of more limbs, an empty one for a quotient of zero, and one ending at a limb. *)
Example ex_div_limbs : let c := mkcfg false false true false in
  (exists d, limb_divisor_for d 0x10000 /\ byte_len 0x10000 3 /\
     snd (ct_div_mp_l (BE [1; 2]) d (Some (NE []))) = Some (Ok 0x102, Some (NE [])) /\
     snd (ct_div_mp_l (BE [1; 2; 3; 4; 5; 6]) d (Some (LE [7; 7; 7; 7]))) = Some (Ok 0x506, Some (LE [4; 3; 2; 1])) /\
     snd (ct_div_mp_l (BE [1; 2; 3; 4; 5; 6]) d (Some (LE [7; 7; 7; 7; 7]))) = Some (Ok 0x506, Some (LE [4; 3; 2; 1; 0])) /\
     snd (ct_div_mp_l (BE [1; 2; 3; 4; 5; 6]) d (Some (NE [7]))) = None).
Proof.
  cbv zeta. eexists. split; [split; [split; vm_compute; congruence|vm_compute; reflexivity]|].
  split; [split; [lia|]; split; vm_compute; congruence|]. repeat split; vm_compute; reflexivity.
Qed.

(** An empty dividend leaves the quotient buffer alone. *)
Theorem C28_div_empty : forall (c : cfg) u d q, mp_len u = 0 -> returns (ct_div_mp_l u d q) (Ok 0, q).
Proof. exact div_l_empty. Qed.
Print Assumptions C28_div_empty.

(** An empty dividend is zero, but the quotient buffer retains its former contents. *)
Theorem C28_div_empty_refuted : forall (c : cfg) d, exists u b, mp_ok u /\ mp_ok b /\ mpval u = 0 /\ mpval b <> 0 /\
  returns (ct_div_mp_l u d (Some b)) (Ok 0, Some b).
Proof.
  intros c d. exists (BE []), (BE [1]). destruct c as [l64 am u64 dd]. destruct l64, am, u64, dd;
  (split; [split; [repeat constructor; vm_compute; congruence|vm_compute; reflexivity]|];
   split; [split; [repeat constructor; vm_compute; congruence|vm_compute; reflexivity]|];
   split; [vm_compute; reflexivity|]; split; [vm_compute; congruence|vm_compute; reflexivity]).
Qed.
Print Assumptions C28_div_empty_refuted.

Theorem C28_mod : forall (c : cfg) u d v, mp_ok u -> limb_divisor_for d v -> returns (ct_mod_mp_l u d) (mpval u mod v).
Proof. exact mod_l_correct. Qed.
Print Assumptions C28_mod.

Example ex_div_l : let c := mkcfg false false true true in
  let u := BE [0x12; 0x34; 0x56; 0x78; 0x9a; 0xbc] in let q := LE [7; 7; 7; 7; 7; 7; 7] in
  mp_ok u /\ byte_len 0x101 2 /\ mp_ok q /\ mp_len u + 1 <= mp_len q + 2 /\ nlimbs u <= nlimbs q /\
  exists d, limb_divisor_for d 0x101 /\
  snd (ct_div_mp_l u d (Some q)) = Some (Ok 0x66, Some (LE [0x56; 0x44; 0x34; 0x22; 0x12; 0x0; 0x0])).
Proof.
  cbv zeta. split; [split; [repeat constructor; vm_compute; congruence|vm_compute; reflexivity]|].
  split; [split; [lia|]; split; vm_compute; congruence|].
  split; [split; [repeat constructor; vm_compute; congruence|vm_compute; reflexivity]|].
  split; [vm_compute; congruence|]. split; [vm_compute; congruence|].
  eexists. split; [split; [split; vm_compute; congruence|vm_compute; reflexivity]|vm_compute; reflexivity].
Qed.
