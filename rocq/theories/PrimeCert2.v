(** Certificates of primality from two prime factors of p - 1, and the primality of 2^255 - 19. *)
From Coq Require Import ZArith Znumtheory Zpow_facts List Bool Lia.
Require Import Verif.PrimeFacts Verif.PrimeFacts2 Verif.PrimeCert.
Import ListNotations.
Open Scope Z_scope.

Lemma pocklington_div : forall p f k a r, 1 < p -> prime f -> p - 1 = k * f -> 0 < k -> Zpow_mod a (p - 1) p = 1 -> Z.gcd (Zpow_mod a k p - 1) p = 1 ->
  prime r -> (r | p) -> (f | r - 1).
Proof.
  intros p f k a r Hp Hf Ek Hk E1 EG R1 R2.
  pose proof (prime_ge_2 r R1) as R4. pose proof (prime_ge_2 f Hf) as F4. rewrite Zpow_mod_correct in E1, EG by lia.
  assert (RM : forall x, (x mod p) mod r = x mod r). { intros x. destruct R2 as [m Hm]. rewrite Hm, Z.mul_comm. assert (0 < m) by nia. rewrite Z.rem_mul_r, Z.mul_comm, Z.mod_add, Z.mod_mod by lia. auto. }
  assert (A1 : a ^ (k * f) mod r = 1). { rewrite <- Ek, <- RM, E1. apply Z.mod_small. lia. }
  assert (NA : ~ (r | a)).
  { intros X. assert ((r | a ^ (k * f))). { replace (k * f) with (1 + (k * f - 1)) by ring. rewrite Z.pow_add_r, Z.pow_1_r by nia. apply Z.divide_mul_l. auto. } apply Z.mod_divide in H; lia. }
  assert (NK : a ^ k mod r <> 1).
  { intros X. assert (DV : (r | a ^ k mod p - 1)). { apply Z.mod_divide; [lia|]. rewrite Zminus_mod, RM, X, (Z.mod_small 1), Z.sub_diag by lia. apply Z.mod_0_l. lia. }
    pose proof (Z.gcd_greatest _ _ _ DV R2) as G. rewrite EG in G. apply Z.divide_1_r_nonneg in G; lia. }
  assert (FD : (f | r - 1)).
  { destruct (Zdivide_dec f (r - 1)) as [Y|Y]; [auto|]. exfalso. apply NK. destruct (Z.eq_dec r 2) as [->|R5].
    { assert (X : a mod 2 = 1). { pose proof (Z.mod_pos_bound a 2 ltac:(lia)). destruct (Z.eq_dec (a mod 2) 0); [|lia]. apply Z.mod_divide in e; [contradiction|lia]. }
      rewrite Zpower_mod, X, Z.pow_1_l by lia. auto. }
    pose proof (prime_rel_prime f Hf _ Y) as RP. destruct (rel_prime_bezout _ _ RP) as [u v E].
    set (u' := u mod (r - 1)). pose proof (Z.mod_pos_bound u (r - 1) ltac:(lia)) as U. fold u' in U.
    assert (ET : exists t, 0 <= t /\ u' * f = 1 + t * (r - 1)).
    { exists (- v - u / (r - 1) * f). pose proof (Z.div_mod u (r - 1) ltac:(lia)) as DM. fold u' in DM.
      assert (EQ : u' * f = 1 + (- v - u / (r - 1) * f) * (r - 1)) by nia. split; [|exact EQ].
      destruct (Z.eq_dec u' 0) as [Z0|Z0]; [|set (t := - v - u / (r - 1) * f) in *; clearbody t; clear - EQ Z0 U F4 R4; nia]. rewrite Z0 in EQ. exfalso. assert (Q : ((r - 1) * - (- v - u / (r - 1) * f) = 1)) by lia. apply Z.mul_eq_1 in Q. lia. }
    destruct ET as (t & T0 & ET).
    assert (X : a ^ (k * f * u') mod r = 1). { rewrite Z.pow_mul_r, Zpower_mod, A1, Z.pow_1_l, Z.mod_small by (try lia; apply Z.mul_nonneg_nonneg; lia). auto. }
    assert (KT : 0 <= k * t) by (apply Z.mul_nonneg_nonneg; lia). assert (RT : 0 <= (r - 1) * (k * t)) by (apply Z.mul_nonneg_nonneg; lia).
    replace (k * f * u') with (k * (u' * f)) in X by ring. rewrite ET in X. replace (k * (1 + t * (r - 1))) with (k + (r - 1) * (k * t)) in X by ring. rewrite Z.pow_add_r, Z.pow_mul_r in X by lia.
    rewrite <- Zmult_mod_idemp_r, (Zpower_mod (a ^ (r - 1))), (fermat r a R1 NA), Z.pow_1_l, (Z.mod_small 1), Z.mul_1_r in X by lia. auto. }
  exact FD.
Qed.
Lemma pocklington2 : forall p f1 k1 f2 k2 a, 1 < p -> prime f1 -> prime f2 -> f1 <> f2 -> p - 1 = k1 * f1 -> p - 1 = k2 * f2 -> 0 < k1 -> 0 < k2 -> p < (f1 * f2 + 1) * (f1 * f2 + 1) ->
  Zpow_mod a (p - 1) p = 1 -> Z.gcd (Zpow_mod a k1 p - 1) p = 1 -> Z.gcd (Zpow_mod a k2 p - 1) p = 1 -> prime p.
Proof.
  intros p f1 k1 f2 k2 a Hp P1 P2 NE E1 E2 K1 K2 HS HF G1 G2. destruct (prime_dec p) as [D|D]; [auto|]. destruct (small_prime_divisor p Hp D) as (r & R1 & R2 & R3). exfalso.
  pose proof (pocklington_div p f1 k1 a r Hp P1 E1 K1 HF G1 R1 R2) as D1. pose proof (pocklington_div p f2 k2 a r Hp P2 E2 K2 HF G2 R1 R2) as D2.
  pose proof (prime_ge_2 r R1) as R4. pose proof (prime_ge_2 f1 P1). pose proof (prime_ge_2 f2 P2).
  assert (RP : rel_prime f1 f2). { apply prime_rel_prime; auto. intros X. apply NE. apply prime_div_prime; auto. }
  assert (DM : (f1 * f2 | r - 1)). { destruct D1 as [x Hx]. rewrite Hx in D2 |- *. rewrite (Z.mul_comm x f1). apply Z.mul_divide_mono_l. apply Gauss with f1; [rewrite Z.mul_comm; auto|]. apply rel_prime_sym. auto. }
  apply Z.divide_pos_le in DM; [|lia]. nia.
Qed.

Ltac pock1 f k a := apply (pocklington _ f k a); [reflexivity|auto|reflexivity|reflexivity|reflexivity|vm_compute; reflexivity|vm_compute; reflexivity].
Ltac pock2 f1 k1 f2 k2 a := apply (pocklington2 _ f1 k1 f2 k2 a); [reflexivity|auto|auto|discriminate|reflexivity|reflexivity|reflexivity|reflexivity|reflexivity|vm_compute; reflexivity|vm_compute; reflexivity|vm_compute; reflexivity].
Lemma prime_p25519 : prime (2 ^ 255 - 19).
Proof.
  assert (prime 991) by (apply (prime_trial _ 31); [reflexivity|reflexivity|lia|vm_compute; reflexivity]).
  assert (prime 103) by (apply (prime_trial _ 10); [reflexivity|reflexivity|lia|vm_compute; reflexivity]).
  assert (prime 8574133) by pock2 991 8652 103 83244 2.
  assert (prime 127) by (apply (prime_trial _ 11); [reflexivity|reflexivity|lia|vm_compute; reflexivity]).
  assert (prime 1919519569386763) by pock2 8574133 223873314 127 15114327318006 2.
  assert (prime 419) by (apply (prime_trial _ 20); [reflexivity|reflexivity|lia|vm_compute; reflexivity]).
  assert (prime 97) by (apply (prime_trial _ 9); [reflexivity|reflexivity|lia|vm_compute; reflexivity]).
  assert (prime 569003) by pock2 419 1358 97 5866 2.
  assert (prime 2773320623) by pock1 569003 4874 2.
  assert (prime 72106336199) by pock1 2773320623 26 2.
  assert (prime 75445702479781427272750846543864801) by pock2 1919519569386763 39304471641247389600 72106336199 1046311689884858398375200 2.
  assert (prime 1723) by (apply (prime_trial _ 41); [reflexivity|reflexivity|lia|vm_compute; reflexivity]).
  assert (prime 430751) by pock1 1723 250 2.
  assert (prime 4153) by (apply (prime_trial _ 64); [reflexivity|reflexivity|lia|vm_compute; reflexivity]).
  assert (prime 31757755568855353) by pock2 430751 73726481352 4153 7646943310584 2.
  assert (prime 74058212732561358302231226437062788676166966415465897661863160754340907) by pock2 75445702479781427272750846543864801 981609426360740691344999861639072106 31757755568855353 2331972502653487852620185443007392165117953542933313402 2.
  pock1 74058212732561358302231226437062788676166966415465897661863160754340907 781764 2.
Qed.
