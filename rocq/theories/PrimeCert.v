(** Certificates of primality, for the primes of witnesses. *)
From Coq Require Import ZArith Znumtheory Zpow_facts List Bool Lia.
Require Import Verif.PrimeFacts Verif.PrimeFacts2.
Import ListNotations.
Open Scope Z_scope.

Lemma small_prime_divisor : forall p, 1 < p -> ~ prime p -> exists r, prime r /\ (r | p) /\ r * r <= p.
Proof.
  intros p Hp NP. destruct (not_prime_divide p Hp NP) as (n & Hn & m & Hm).
  assert (M : 1 < m < p) by nia.
  assert (X : exists d, 1 < d /\ (d | p) /\ d * d <= p).
  { destruct (Z_le_gt_dec n m); [exists n|exists m]; (split; [lia|]; split; [|nia]). - exists m. auto. - exists n. lia. }
  destruct X as (d & D1 & D2 & D3). destruct (prime_factor d D1) as (r & R1 & R2). exists r. split; [auto|]. split; [eapply Z.divide_trans; eauto|].
  apply Z.divide_pos_le in R2; [|lia]. pose proof (prime_ge_2 r R1). nia.
Qed.

(** Trial division. *)
Lemma prime_trial : forall p b, 1 < p -> p < (b + 1) * (b + 1) -> 0 <= b -> forallb (fun d => negb (p mod d =? 0)) (map Z.of_nat (seq 2 (Z.to_nat b))) = true -> prime p.
Proof.
  intros p b Hp HB B0 H. destruct (prime_dec p) as [D|D]; [auto|]. destruct (small_prime_divisor p Hp D) as (r & R1 & R2 & R3). exfalso. pose proof (prime_ge_2 r R1) as R4.
  rewrite forallb_forall in H. assert (IN : In r (map Z.of_nat (seq 2 (Z.to_nat b)))). { rewrite <- (Z2Nat.id r) by lia. apply in_map, in_seq. nia. }
  specialize (H r IN). apply Z.mod_divide in R2; [|lia]. rewrite R2 in H. discriminate.
Qed.

(** Pocklington's criterion with one large prime factor of p - 1. *)
Lemma pocklington : forall p f k a, 1 < p -> prime f -> p - 1 = k * f -> 0 < k -> p < (f + 1) * (f + 1) ->
  Zpow_mod a (p - 1) p = 1 -> Z.gcd (Zpow_mod a k p - 1) p = 1 -> prime p.
Proof.
  intros p f k a Hp Hf Ek Hk HS E1 EG. destruct (prime_dec p) as [D|D]; [auto|]. destruct (small_prime_divisor p Hp D) as (r & R1 & R2 & R3). exfalso.
  pose proof (prime_ge_2 r R1) as R4. pose proof (prime_ge_2 f Hf) as F4. rewrite Zpow_mod_correct in E1, EG by lia.
  assert (RM : forall x, (x mod p) mod r = x mod r). { intros x. destruct R2 as [m Hm]. rewrite Hm, Z.mul_comm. assert (0 < m) by nia. rewrite Z.rem_mul_r, Z.mul_comm, Z.mod_add, Z.mod_mod by lia. auto. }
  assert (A1 : a ^ (k * f) mod r = 1). { rewrite <- Ek, <- RM, E1. apply Z.mod_small. lia. }
  assert (NA : ~ (r | a)).
  { intros X. assert ((r | a ^ (k * f))). { replace (k * f) with (1 + (k * f - 1)) by ring. rewrite Z.pow_add_r, Z.pow_1_r by nia. apply Z.divide_mul_l. auto. } apply Z.mod_divide in H; lia. }
  assert (NK : a ^ k mod r <> 1).
  { intros X. assert (DV : (r | a ^ k mod p - 1)). { apply Z.mod_divide; [lia|]. rewrite Zminus_mod, RM, X, (Z.mod_small 1), Z.sub_diag by lia. apply Z.mod_0_l. lia. }
    pose proof (Z.gcd_greatest _ _ _ DV R2) as G. rewrite EG in G. apply Z.divide_1_r_nonneg in G; lia. }
  assert (FD : (f | r - 1)).
  { destruct (Zdivide_dec f (r - 1)) as [Y|Y]; [auto|]. exfalso. apply NK. destruct (Z.eq_dec r 2) as [->|R5].
    { assert (X : a mod 2 = 1). { pose proof (Z.mod_pos_bound a 2 ltac:(lia)). destruct (Z.eq_dec (a mod 2) 0); [|lia]. apply Z.mod_divide in e; [contradiction|lia]. }
      rewrite Zpower_mod, X, Z.pow_1_l by lia. auto. }
    pose proof (prime_rel_prime f Hf _ Y) as RP. destruct (rel_prime_bezout _ _ RP) as [u v E].
    set (u' := u mod (r - 1)). pose proof (Z.mod_pos_bound u (r - 1) ltac:(lia)) as U. fold u' in U.
    assert (ET : exists t, 0 <= t /\ u' * f = 1 + t * (r - 1)).
    { exists (- v - u / (r - 1) * f). pose proof (Z.div_mod u (r - 1) ltac:(lia)) as DM. fold u' in DM.
      assert (EQ : u' * f = 1 + (- v - u / (r - 1) * f) * (r - 1)) by nia. split; [|exact EQ].
      destruct (Z.eq_dec u' 0) as [Z0|Z0]; [|set (t := - v - u / (r - 1) * f) in *; clearbody t; clear - EQ Z0 U F4 R4; nia]. rewrite Z0 in EQ. exfalso. assert (Q : ((r - 1) * - (- v - u / (r - 1) * f) = 1)) by lia. apply Z.mul_eq_1 in Q. lia. }
    destruct ET as (t & T0 & ET).
    assert (X : a ^ (k * f * u') mod r = 1). { rewrite Z.pow_mul_r, Zpower_mod, A1, Z.pow_1_l, Z.mod_small by (try lia; apply Z.mul_nonneg_nonneg; lia). auto. }
    assert (KT : 0 <= k * t) by (apply Z.mul_nonneg_nonneg; lia). assert (RT : 0 <= (r - 1) * (k * t)) by (apply Z.mul_nonneg_nonneg; lia).
    replace (k * f * u') with (k * (u' * f)) in X by ring. rewrite ET in X. replace (k * (1 + t * (r - 1))) with (k + (r - 1) * (k * t)) in X by ring. rewrite Z.pow_add_r, Z.pow_mul_r in X by lia.
    rewrite <- Zmult_mod_idemp_r, (Zpower_mod (a ^ (r - 1))), (fermat r a R1 NA), Z.pow_1_l, (Z.mod_small 1), Z.mul_1_r in X by lia. auto. }
  apply Z.divide_pos_le in FD; [|lia]. nia.
Qed.
