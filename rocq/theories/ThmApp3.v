(** Theorems about sequences of calls, continued: C55, RSA by the Chinese remainder theorem, and C56, signatures. The programs and what they ask
    of their arguments are in SpecApp3.v, [prime] is the standard library's, [expo dp kp] the number in the low [kp] bits of [dp]. *)
From Coq Require Import ZArith Znumtheory List Lia.
Require Import Verif.Spec Verif.Monad Verif.ModelLimb Verif.ModelBuf Verif.SpecBuf Verif.SpecDiv Verif.SpecMont Verif.SpecEuclid
  Verif.SpecApp Verif.SpecApp2 Verif.SpecApp3 Verif.MontFine Verif.SpecSteps Verif.FitCheck Verif.InvOddFacts4 Verif.AppProofs3 Verif.AppProofs4.
Import ListNotations.
Open Scope Z_scope.

Ltac okmp := split; [repeat constructor; vm_compute; congruence|vm_compute; reflexivity].

(** ** C55: RSA by the Chinese remainder theorem *)

(** Computing modulo the two primes and combining the results gives the power modulo their product, for every exponent that [dp] and [dq]
    stand for. Missing: primes for which C29 and C30 are refuted. *)
Theorem C55_rsa_crt_partial : forall (c : cfg) p q dp kp dq kq qinv xph xpl xqh xql rp rq out s1 s2 x d, crt_key p q dp kp dq kq qinv -> exp_modulus p -> exp_modulus q ->
  two_parts p xph xpl x -> two_parts q xqh xql x -> crt_exponent p q dp kp dq kq d -> crt_buffers p q rp rq out s1 s2 ->
  yields (rsa_crt p q dp kp dq kq qinv xph xpl xqh xql rp rq out s1 s2) (fun m => becomes out m (x ^ d mod (mpval p * mpval q))).
Proof. exact @rsa_crt_correct'. Qed.
Print Assumptions C55_rsa_crt_partial.

(** For all primes of at least two limbs, if no carry gets lost in the powers and the product (C30, C32). *)
Theorem C55_rsa_crt_any_partial : forall (c : cfg) p q dp kp dq kq qinv xph xpl xqh xql rp rq out s1 s2 x d, crt_key p q dp kp dq kq qinv -> exp_modulus_any p -> exp_modulus_any q ->
  two_parts p xph xpl x -> two_parts q xqh xql x -> crt_exponent p q dp kp dq kq d -> crt_buffers p q rp rq out s1 s2 ->
  exp_fine p (x mod mpval p) dp kp -> exp_fine q (x mod mpval q) dq kq ->
  mg_fine p (mg_form p ((x ^ d mod mpval p - x ^ d mod mpval q) mod mpval p)) (mpval qinv) ->
  yields (rsa_crt p q dp kp dq kq qinv xph xpl xqh xql rp rq out s1 s2) (fun m => becomes out m (x ^ d mod (mpval p * mpval q))).
Proof. exact @rsa_crt_any'. Qed.
Print Assumptions C55_rsa_crt_any_partial.

(** A message [m] encrypted with the public exponent [e] is decrypted. *)
Theorem C55_round_trip_partial : forall (c : cfg) p q dp kp dq kq qinv xph xpl xqh xql rp rq out s1 s2 m e, crt_key p q dp kp dq kq qinv -> exp_modulus p -> exp_modulus q ->
  0 <= m < mpval p * mpval q -> 0 < e -> 0 < expo dp kp -> 0 < expo dq kq ->
  (e * expo dp kp) mod (mpval p - 1) = 1 mod (mpval p - 1) -> (e * expo dq kq) mod (mpval q - 1) = 1 mod (mpval q - 1) ->
  two_parts p xph xpl (m ^ e mod (mpval p * mpval q)) -> two_parts q xqh xql (m ^ e mod (mpval p * mpval q)) -> crt_buffers p q rp rq out s1 s2 ->
  yields (rsa_crt p q dp kp dq kq qinv xph xpl xqh xql rp rq out s1 s2) (fun y => becomes out y m).
Proof. exact @rsa_crt_round_trip'. Qed.
Print Assumptions C55_round_trip_partial.

(** For all primes of at least two limbs, if no carry gets lost. C55_round_trip_refuted (ThmAppWrong.v): otherwise it may not be. *)
Theorem C55_round_trip_any_partial : forall (c : cfg) p q dp kp dq kq qinv xph xpl xqh xql rp rq out s1 s2 m e, crt_key p q dp kp dq kq qinv -> exp_modulus_any p -> exp_modulus_any q ->
  0 <= m < mpval p * mpval q -> 0 < e -> 0 < expo dp kp -> 0 < expo dq kq ->
  (e * expo dp kp) mod (mpval p - 1) = 1 mod (mpval p - 1) -> (e * expo dq kq) mod (mpval q - 1) = 1 mod (mpval q - 1) ->
  let x := m ^ e mod (mpval p * mpval q) in
  two_parts p xph xpl x -> two_parts q xqh xql x -> crt_buffers p q rp rq out s1 s2 ->
  exp_fine p (x mod mpval p) dp kp -> exp_fine q (x mod mpval q) dq kq -> mg_fine p (mg_form p ((m mod mpval p - m mod mpval q) mod mpval p)) (mpval qinv) ->
  yields (rsa_crt p q dp kp dq kq qinv xph xpl xqh xql rp rq out s1 s2) (fun y => becomes out y m).
Proof. exact @crt_trip_any. Qed.
Print Assumptions C55_round_trip_any_partial.

(** ** C56: signatures *)

(** Signing. Missing: [p] and [q] for which C29 and C30 are refuted, and [q] using the most significant limb of their buffer, for some of
    which C34 is. *)
Theorem C56_sign_partial : forall (c : cfg) p q g x k z bp bq sp sq w, dsa_group p q g -> dsa_buffers p q bp bq sp sq -> below q x -> below q k -> below q z ->
  is_inverse (mpval q) (mpval k) w ->
  yields (dsa_sign p q g x k z bp bq sp sq) (fun '(r, s) =>
    becomes bq r ((mpval g ^ mpval k mod mpval p) mod mpval q) /\ becomes bq s (w * (mpval z + mpval x * mpval r) mod mpval q)).
Proof. exact @dsa_sign_ok'. Qed.
Print Assumptions C56_sign_partial.

(** Without the spare limb, the code silently makes wrong signatures: [r] is right and [s] is not. *)
Theorem C56_sign_refuted : forall (c : cfg), limb64 c = false -> asm_math c = false -> usize64 c = true ->
  exists p q g x k z bp bq sp sq w, exp_modulus p /\ exp_modulus q /\ gcd_len_ok (LB * nlimbs q) /\ 1 < mpval q < mpval p /\ below p g /\ mpval p = 42 * mpval q + 1 /\ mpval g = 2 ^ 42 mod mpval p /\
  dsa_buffers p q bp bq sp sq /\ below q x /\ below q k /\ below q z /\ is_inverse (mpval q) (mpval k) w /\
  yields (dsa_sign p q g x k z bp bq sp sq) (fun '(r, s) =>
    becomes bq r ((mpval g ^ mpval k mod mpval p) mod mpval q) /\ mp_ok s /\ mpval s < mpval q /\ mpval s <> w * (mpval z + mpval x * mpval r) mod mpval q).
Proof. exact @dsa_sign_wrong. Qed.
Print Assumptions C56_sign_refuted.

(** Verification: it tells whether the equation of the standard holds. *)
Theorem C56_verify_partial : forall (c : cfg) p q g y z r s bp bq sp sq w, dsa_group p q g -> dsa_buffers p q bp bq sp sq -> below p y -> below q z -> below q r -> below q s ->
  is_inverse (mpval q) (mpval s) w ->
  returns (dsa_verify p q g y z r s bp bq sp sq)
    (((mpval g ^ ((mpval z * w) mod mpval q) * mpval y ^ ((mpval r * w) mod mpval q)) mod mpval p) mod mpval q =? mpval r).
Proof. exact @dsa_verify_ok'. Qed.
Print Assumptions C56_verify_partial.

(** Signatures of the holder of the private key are accepted, whatever buffers the two sides use; if [s] is zero, the standard asks
    for another secret [k]. *)
Theorem C56_round_trip_partial : forall (c : cfg) p q g x y k z bp bq sp sq bp' bq' sp' sq', dsa_group p q g -> prime (mpval q) -> mpval g ^ mpval q mod mpval p = 1 ->
  dsa_buffers p q bp bq sp sq -> dsa_buffers p q bp' bq' sp' sq' -> below q x -> below q k -> 0 < mpval k -> below q z ->
  mp_ok y -> mpval y = mpval g ^ mpval x mod mpval p ->
  yields (dsa_sign p q g x k z bp bq sp sq) (fun '(r, s) => mpval s <> 0 -> returns (dsa_verify p q g y z r s bp' bq' sp' sq') true).
Proof. exact @dsa_round_trip'. Qed.
Print Assumptions C56_round_trip_partial.

(** For all [p] and [q] of at least two limbs, if no carry gets lost in the powers and products computed (C30, C32) and the residues of
    the inversion fit (C34). *)
Theorem C56_sign_any_partial : forall (c : cfg) p q g x k z bp bq sp sq w, dsa_group_any p q g -> dsa_buffers p q bp bq sp sq -> below q x -> below q k -> below q z ->
  is_inverse (mpval q) (mpval k) w -> sign_fine p q g x k z ((mpval g ^ mpval k mod mpval p) mod mpval q) w ->
  yields (dsa_sign p q g x k z bp bq sp sq) (fun '(r, s) =>
    becomes bq r ((mpval g ^ mpval k mod mpval p) mod mpval q) /\ becomes bq s (w * (mpval z + mpval x * mpval r) mod mpval q)).
Proof. exact @dsa_sign_any. Qed.
Print Assumptions C56_sign_any_partial.

Theorem C56_verify_any_partial : forall (c : cfg) p q g y z r s bp bq sp sq w, dsa_group_any p q g -> dsa_buffers p q bp bq sp sq -> below p y -> below q z -> below q r -> below q s ->
  is_inverse (mpval q) (mpval s) w -> verify_fine p q g y z r s w (mp_len bq) ->
  returns (dsa_verify p q g y z r s bp bq sp sq)
    (((mpval g ^ ((mpval z * w) mod mpval q) * mpval y ^ ((mpval r * w) mod mpval q)) mod mpval p) mod mpval q =? mpval r).
Proof. exact @dsa_verify_any. Qed.
Print Assumptions C56_verify_any_partial.

Theorem C56_round_trip_any_partial : forall (c : cfg) p q g x y k z bp bq sp sq bp' bq' sp' sq' w, dsa_group_any p q g -> prime (mpval q) -> mpval g ^ mpval q mod mpval p = 1 ->
  dsa_buffers p q bp bq sp sq -> dsa_buffers p q bp' bq' sp' sq' -> below q x -> below q k -> 0 < mpval k -> below q z -> mp_ok y -> mpval y = mpval g ^ mpval x mod mpval p ->
  is_inverse (mpval q) (mpval k) w -> sign_fine p q g x k z ((mpval g ^ mpval k mod mpval p) mod mpval q) w ->
  yields (dsa_sign p q g x k z bp bq sp sq) (fun '(r, s) => mpval s <> 0 ->
    (forall w2, is_inverse (mpval q) (mpval s) w2 -> verify_fine p q g y z r s w2 (mp_len bq')) -> returns (dsa_verify p q g y z r s bp' bq' sp' sq') true).
Proof. exact @dsa_round_trip_any. Qed.
Print Assumptions C56_round_trip_any_partial.

(** All groups of the theorems further up are among these. *)
Theorem C56_group_fine : forall (c : cfg) p q g x k z y r s w w2 l, dsa_group p q g -> below p y -> 0 <= w < mpval q -> 0 <= w2 < mpval q ->
  dsa_group_any p q g /\ sign_fine p q g x k z ((mpval g ^ mpval k mod mpval p) mod mpval q) w /\ verify_fine p q g y z r s w2 l.
Proof. exact @group_fine. Qed.
Print Assumptions C56_group_fine.

(** Concrete cases meeting the hypotheses. *)
Lemma prime_check : forall p, 1 < p -> forallb (fun n => Z.gcd n p =? 1) (map Z.of_nat (seq 1 (Z.to_nat p - 1))) = true -> prime p.
Proof.
  intros p Hp H. constructor; [auto|]. intros n Hn. apply Zgcd_1_rel_prime. rewrite forallb_forall in H.
  apply Z.eqb_eq, H. rewrite <- (Z2Nat.id n) by lia. apply in_map, in_seq. lia.
Qed.

(** The primes 251 and 241, the exponents 7 and 143 and 103, the message 12345. *)
Example ex_rsa_crt : let c := mkcfg false false true true in
  let p := BE [0; 0; 0; 0; 251] in let q := LE [241; 0; 0; 0; 0] in let qinv := LE [25; 0; 0; 0; 0] in
  let xph := Some (BE [0]) in let xpl := BE [0; 0; 0; 234; 224] in let xql := NE [60128; 0] in
  let rp := BE [1; 2; 3; 4; 5] in let rq := NE [6; 6] in let out := NE [1; 1; 1] in let s := [5; 5] in
  crt_key p q (BE [143]) 8 (LE [103; 9]) 8 qinv /\ exp_modulus p /\ exp_modulus q /\
  two_parts p xph xpl (12345 ^ 7 mod (mpval p * mpval q)) /\ two_parts q None xql (12345 ^ 7 mod (mpval p * mpval q)) /\
  crt_buffers p q rp rq out s s /\ crt_exponent p q (BE [143]) 8 (LE [103; 9]) 8 5143 /\
  (7 * expo (BE [143]) 8) mod (mpval p - 1) = 1 mod (mpval p - 1) /\ (7 * expo (LE [103; 9]) 8) mod (mpval q - 1) = 1 mod (mpval q - 1) /\
  snd (rsa_crt p q (BE [143]) 8 (LE [103; 9]) 8 qinv xph xpl None xql rp rq out s s) = Some (NE [12345; 0; 0]).
Proof.
  cbv zeta. split; [|split; [|split; [|split; [|split; [|split; [|split; [|split; [|split]]]]]]]].
  - split; [apply prime_check; [reflexivity|vm_compute; reflexivity]|]. split; [apply prime_check; [reflexivity|vm_compute; reflexivity]|].
    split; [reflexivity|]. split; [okmp|]. split; [vm_compute; congruence|]. split; [okmp|]. split; [vm_compute; congruence|].
    split; [split; [okmp|left; reflexivity]|]. split; [vm_compute; split; congruence|reflexivity].
  - split; [okmp|]. split; [reflexivity|]. split; [vm_compute; congruence|]. split; [vm_compute; congruence|reflexivity].
  - split; [okmp|]. split; [reflexivity|]. split; [vm_compute; congruence|]. split; [vm_compute; congruence|reflexivity].
  - split; [split; [okmp|split; [okmp|reflexivity]]|]. split; [split; [okmp|left; reflexivity]|vm_compute; reflexivity].
  - split; [split; [okmp|exact I]|]. split; [split; [okmp|right; split; [reflexivity|vm_compute; split; congruence]]|vm_compute; reflexivity].
  - split; [split; [split; [okmp|left; reflexivity]|left; split; [vm_compute; congruence|discriminate]]|].
    split; [split; [split; [okmp|right; split; [reflexivity|vm_compute; split; congruence]]|right; vm_compute; congruence]|].
    split; [okmp|]. split; [vm_compute; congruence|].
    split; (split; [okmp|]; split; [vm_compute; congruence|right; vm_compute; congruence]).
  - split; [reflexivity|]. split; [reflexivity|]. split; [reflexivity|]. split; [exists 20; reflexivity|exists 21; vm_compute; reflexivity].
  - vm_compute. reflexivity.
  - vm_compute. reflexivity.
  - vm_compute. reflexivity.
Qed.

(** The group of order 101 modulo 607, the private key 57, the secret 33, the hash 88. *)
Example ex_dsa : let c := mkcfg false false true true in
  let p := BE [0; 0; 0; 2; 95] in let q := LE [101; 0; 0; 0; 0] in let g := BE [64] in
  let x := BE [57] in let y := LE [212] in let k := NE [33] in let z := LE [88; 0] in
  let bp := BE [1; 2; 3; 4; 5] in let bq := NE [6; 6] in let s := [5; 5] in let bq' := LE [1; 1; 1; 1; 1] in
  dsa_group p q g /\ prime (mpval q) /\ mpval g ^ mpval q mod mpval p = 1 /\ dsa_buffers p q bp bq s s /\ dsa_buffers p q bp bq' s s /\
  below q x /\ below q k /\ 0 < mpval k /\ below q z /\ mp_ok y /\ mpval y = mpval g ^ mpval x mod mpval p /\ is_inverse (mpval q) (mpval k) 49 /\ is_inverse (mpval q) 36 87 /\
  snd (dsa_sign p q g x k z bp bq s s) = Some (NE [76; 0], NE [36; 0]) /\
  snd (dsa_verify p q g y z (NE [76; 0]) (NE [36; 0]) bp bq' s s) = Some true /\
  snd (dsa_verify p q g y z (NE [77; 0]) (NE [36; 0]) bp bq' s s) = Some false.
Proof.
  cbv zeta. split; [|split; [|split; [|split; [|split]]]].
  - split; [split; [okmp|]; split; [reflexivity|]; split; [vm_compute; congruence|]; split; [vm_compute; congruence|reflexivity]|].
    split; [split; [okmp|]; split; [reflexivity|]; split; [vm_compute; congruence|]; split; [vm_compute; congruence|reflexivity]|].
    split; [vm_compute; congruence|]. split; [reflexivity|]. split; [split; reflexivity|]. split; [okmp|reflexivity].
  - apply prime_check; [reflexivity|vm_compute; reflexivity].
  - vm_compute. reflexivity.
  - split; [split; [split; [okmp|left; reflexivity]|left; split; [vm_compute; congruence|discriminate]]|].
    split; [split; [split; [okmp|right; split; [reflexivity|vm_compute; split; congruence]]|right; vm_compute; congruence]|].
    split; [split; [okmp|]; split; [vm_compute; congruence|right; vm_compute; congruence]|]. split; [okmp|vm_compute; congruence].
  - split; [split; [split; [okmp|left; reflexivity]|left; split; [vm_compute; congruence|discriminate]]|].
    split; [split; [split; [okmp|left; reflexivity]|left; split; [vm_compute; congruence|discriminate]]|].
    split; [split; [okmp|]; split; [vm_compute; congruence|right; vm_compute; congruence]|]. split; [okmp|vm_compute; congruence].
  - split; [split; [okmp|reflexivity]|]. split; [split; [okmp|reflexivity]|]. split; [reflexivity|]. split; [split; [okmp|reflexivity]|]. split; [okmp|]. split; [vm_compute; reflexivity|].
    split; [vm_compute; split; [split; congruence|reflexivity]|]. split; [vm_compute; split; [split; congruence|reflexivity]|].
    split; [vm_compute; reflexivity|]. split; vm_compute; reflexivity.
Qed.

(** The most significant limb of [q] is in use: 2^33 + 17 in two limbs of 32 bits, beside [p] = 2^35 + 3. *)
Example ex_dsa_any : let c := mkcfg false false true true in
  let p := NE [3; 8] in let q := NE [17; 2] in let g := NE [12345; 0] in let x := BE [57] in let k := BE [3] in let z := BE [88] in let y := BE [7; 7] in
  let b := NE [0; 0] in let s := [0; 0] in let sr := NE [170287764; 0] in let ss := NE [372156009; 0] in
  dsa_group_any p q g /\ B ^ (nlimbs q - 1) < mpval q /\ dsa_buffers p q b b s s /\ below q x /\ below q k /\ below q z /\ below p y /\ below q sr /\ below q ss /\
  is_inverse (mpval q) (mpval k) 5726623073 /\ sign_fine p q g x k z ((mpval g ^ mpval k mod mpval p) mod mpval q) 5726623073 /\
  is_inverse (mpval q) (mpval ss) 3955135809 /\ verify_fine p q g y z sr ss 3955135809 (mp_len b) /\
  snd (dsa_sign p q g x k z b b s s) = Some (sr, ss).
Proof.
  cbv zeta. set (c := mkcfg false false true true).
  assert (G : dsa_group_any (c := c) (NE [3; 8]) (NE [17; 2]) (NE [12345; 0])).
  { split; [split; [okmp|]; split; [reflexivity|]; split; [vm_compute; congruence|reflexivity]|].
    split; [split; [okmp|]; split; [reflexivity|]; split; [vm_compute; congruence|reflexivity]|].
    split; [reflexivity|]. split; [split; reflexivity|]. split; [okmp|reflexivity]. }
  assert (Y : below (c := c) (NE [3; 8]) (BE [7; 7])) by (split; [okmp|reflexivity]).
  assert (I1 : inv_fine (c := c) (NE [17; 2]) 3). { apply late_swaps_fit; [vm_compute; congruence|]. apply (late_check_correct (c := c) 6); vm_compute; [discriminate|auto]. }
  assert (I2 : inv_fine (c := c) (NE [17; 2]) 372156009). { apply late_swaps_fit; [vm_compute; congruence|]. apply (late_check_correct (c := c) 6); vm_compute; [discriminate|auto]. }
  destruct (fine_clear (c := c) (NE [3; 8]) (NE [17; 2]) (NE [12345; 0]) (BE [57]) (BE [3]) (BE [88]) (BE [7; 7]) (NE [170287764; 0]) (NE [372156009; 0]) 5726623073 3955135809 (mp_len (NE [0; 0])) G) as [F1 F2];
    [vm_compute; congruence|vm_compute; congruence|auto|vm_compute; split; congruence|vm_compute; split; congruence|].
  split; [exact G|]. split; [reflexivity|].
  split. { split; [split; [split; [okmp|left; reflexivity]|left; split; [vm_compute; congruence|reflexivity]]|]; split; [split; [split; [okmp|left; reflexivity]|left; split; [vm_compute; congruence|reflexivity]]|];
    split; [split; [okmp|]; split; [vm_compute; congruence|left; split; [vm_compute; congruence|reflexivity]]|]; split; [okmp|vm_compute; congruence]. }
  split; [split; [okmp|reflexivity]|]. split; [split; [okmp|reflexivity]|]. split; [split; [okmp|reflexivity]|]. split; [exact Y|].
  split; [split; [okmp|reflexivity]|]. split; [split; [okmp|reflexivity]|].
  split; [vm_compute; split; [split; congruence|reflexivity]|]. split; [apply F1; exact I1|]. split; [vm_compute; split; [split; congruence|reflexivity]|].
  split; [apply F2; exact I2|]. vm_compute. reflexivity.
Qed.
