(** RSA decryption by the Chinese remainder theorem that goes wrong (ThmAppWrong.v). *)
From Coq Require Import ZArith Znumtheory Zpow_facts List Bool Lia.
Require Import Verif.Spec Verif.Base Verif.Monad Verif.ModelLimb Verif.ModelBuf Verif.SpecBuf Verif.SpecDiv Verif.SpecMont Verif.SpecApp Verif.SpecApp2 Verif.SpecApp3 Verif.SpecAppWrong Verif.PrimeCert.
Import ListNotations.
Open Scope Z_scope.

Ltac pock f k := apply (pocklington _ f k 2); [reflexivity|auto|reflexivity|reflexivity|reflexivity|vm_compute; reflexivity|vm_compute; reflexivity].
Lemma prime_15307 : prime 15307.
Proof. apply (prime_trial _ 123); [reflexivity|reflexivity|lia|vm_compute; reflexivity]. Qed.
Lemma prime_32 : prime (2 ^ 64 - 189).
Proof.
  pose proof prime_15307. assert (prime 27552601) by pock 15307 1800. assert (prime 16373353565059) by pock 27552601 594258.
  assert (prime 133672058505141677) by pock 16373353565059 8164. pock 133672058505141677 138.
Qed.
Lemma prime_42457 : prime 42457.
Proof. apply (prime_trial _ 206); [reflexivity|reflexivity|lia|vm_compute; reflexivity]. Qed.
Lemma prime_64 : prime (2 ^ 128 - 18705).
Proof.
  pose proof prime_42457. assert (prime 10868993) by pock 42457 256. assert (prime 42435700679971) by pock 10868993 3904290.
  assert (prime 153054454199077244599) by pock 42435700679971 3606738. assert (prime 14025466708746832502328752354293) by pock 153054454199077244599 91637102508.
  pock 14025466708746832502328752354293 24261750.
Qed.
Lemma prime_241 : prime 241.
Proof. apply (prime_trial _ 15); [reflexivity|reflexivity|lia|vm_compute; reflexivity]. Qed.

Ltac okmp := split; [repeat constructor; vm_compute; congruence|vm_compute; reflexivity].
Lemma prime_23 : prime 23.
Proof. apply (prime_trial _ 4); [reflexivity|reflexivity|lia|vm_compute; reflexivity]. Qed.

Lemma crt_wrong_facts : forall (c : cfg), asm_math c = false -> usize64 c = true -> let w := crt_wrong (limb64 c) in
  let p := NE (w_p w) in let q := NE (w_q w) in let d := BE [w_d w] in let xh := Some (NE [w_xh w]) in let xl := NE (w_x w) in let r := NE [0; 0] in let out := NE [0; 0; 0; 0] in
  crt_key p q d 3 d 3 (NE (w_qinv w)) /\ exp_modulus_any p /\ exp_modulus_any q /\ 0 <= w_m w < mpval p * mpval q /\ 0 < w_e w /\ 0 < expo d 3 /\
  (w_e w * expo d 3) mod (mpval p - 1) = 1 mod (mpval p - 1) /\ (w_e w * expo d 3) mod (mpval q - 1) = 1 mod (mpval q - 1) /\
  two_parts p xh xl (w_m w ^ w_e w mod (mpval p * mpval q)) /\ two_parts q xh xl (w_m w ^ w_e w mod (mpval p * mpval q)) /\
  crt_buffers p q r r out [0; 0] [0; 0] /\
  yields (rsa_crt p q d 3 d 3 (NE (w_qinv w)) xh xl xh xl r r out [0; 0] [0; 0]) (fun y => mpval y <> w_m w).
Proof.
  intros [l64 am u64 db] A U. cbn in A, U. subst am u64. set (c := mkcfg l64 false true db). cbv zeta. change (limb64 c) with l64.
  assert (PP : prime (mpval (NE (w_p (crt_wrong l64))))).
  { subst c; destruct l64; [replace (mpval _) with (2 ^ 128 - 18705) by (vm_compute; reflexivity); exact prime_64|
      replace (mpval _) with (2 ^ 64 - 189) by (vm_compute; reflexivity); exact prime_32]. }
  assert (PQ : prime (mpval (NE (w_q (crt_wrong l64))))).
  { subst c; replace (mpval _) with 23 by (destruct l64; vm_compute; reflexivity). exact prime_23. }
  assert (EX : w_m (crt_wrong l64) ^ w_e (crt_wrong l64) mod (mpval (NE (w_p (crt_wrong l64))) * mpval (NE (w_q (crt_wrong l64)))) =
               uval (Some (NE [w_xh (crt_wrong l64)])) (NE (w_x (crt_wrong l64)))).
  { subst c; rewrite <- Zpow_mod_correct by (destruct l64; vm_compute; congruence). destruct l64; vm_compute; reflexivity. }
  rewrite EX. clear EX.
  split; [split; [exact PP|split; [exact PQ|]]|]; clear PP PQ; subst c; destruct l64, db.
  all: try (split; [reflexivity|]; split; [okmp|]; split; [vm_compute; congruence|]; split; [okmp|]; split; [vm_compute; congruence|];
    split; [split; [okmp|left; reflexivity]|]; split; [vm_compute; split; congruence|vm_compute; reflexivity]).
  all: split; [split; [okmp|]; split; [reflexivity|]; split; [vm_compute; congruence|reflexivity]|].
  all: split; [split; [okmp|]; split; [reflexivity|]; split; [vm_compute; congruence|reflexivity]|].
  all: split; [vm_compute; split; congruence|]; split; [reflexivity|]; split; [vm_compute; reflexivity|]; split; [vm_compute; reflexivity|]; split; [vm_compute; reflexivity|].
  all: split; [split; [split; [okmp|split; [okmp|reflexivity]]|]; split; [split; [okmp|left; reflexivity]|reflexivity]|].
  all: split; [split; [split; [okmp|split; [okmp|reflexivity]]|]; split; [split; [okmp|left; reflexivity]|reflexivity]|].
  all: split; [split; [split; [split; [okmp|left; reflexivity]|left; split; [vm_compute; congruence|reflexivity]]|];
    split; [split; [split; [okmp|left; reflexivity]|left; split; [vm_compute; congruence|reflexivity]]|];
    split; [okmp|]; split; [vm_compute; congruence|];
    split; (split; [okmp|]; split; [vm_compute; congruence|left; split; [vm_compute; congruence|reflexivity]])|].
  all: eexists; split; [vm_compute; reflexivity|vm_compute; congruence].
Qed.
