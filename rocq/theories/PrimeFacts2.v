(** Fermat's little theorem and strong probable primes. *)
From Coq Require Import ZArith List Bool Lia Znumtheory Permutation.
Require Import Verif.Spec Verif.Base Verif.SpecPrime.
Import ListNotations.
Open Scope Z_scope.

Definition prodl (l : list Z) : Z := fold_right Z.mul 1 l.
Definition upto (p : Z) : list Z := map Z.of_nat (seq 1 (Z.to_nat (p - 1))).

Lemma upto_In : forall p x, In x (upto p) <-> 1 <= x < p.
Proof.
  intros p x. unfold upto. rewrite in_map_iff. split.
  - intros (k & <- & I). apply in_seq in I. lia.
  - intros H. exists (Z.to_nat x). split; [lia|]. apply in_seq. lia.
Qed.
Lemma upto_NoDup : forall p, NoDup (upto p).
Proof. intros. unfold upto. apply FinFun.Injective_map_NoDup; [intros x y E; lia|apply seq_NoDup]. Qed.
Lemma prodl_perm : forall l l', Permutation l l' -> prodl l = prodl l'.
Proof. intros l l' H. unfold prodl. induction H; cbn [fold_right]; [auto|congruence|ring|congruence]. Qed.
Lemma prodl_map : forall a p l, 0 < p -> prodl (map (fun x => (a * x) mod p) l) mod p = (a ^ Z.of_nat (length l) * prodl l) mod p.
Proof.
  intros a p l Hp. induction l as [|x l IH]; [reflexivity|].
  cbn [map length prodl fold_right] in *. fold (prodl l) in *. fold (prodl (map (fun x => (a * x) mod p) l)).
  rewrite Zmult_mod_idemp_l. rewrite <- Zmult_mod_idemp_r. fold (prodl (map (fun x => (a * x) mod p) l)) in IH. rewrite IH, Zmult_mod_idemp_r.
  rewrite Nat2Z.inj_succ, Z.pow_succ_r by lia. f_equal. ring.
Qed.
Lemma prodl_coprime : forall p l, prime p -> (forall x, In x l -> 1 <= x < p) -> rel_prime p (prodl l).
Proof.
  intros p l Hp. induction l as [|x l IH]; cbn [prodl fold_right]; intros H.
  - apply rel_prime_sym, rel_prime_1.
  - apply rel_prime_mult; [|apply IH; intros; apply H; cbn; auto].
    apply rel_prime_sym, rel_prime_le_prime; auto. apply H. cbn. auto.
Qed.

Theorem fermat : forall p a, prime p -> ~ (p | a) -> a ^ (p - 1) mod p = 1.
Proof.
  intros p a Hp Ha. pose proof (prime_ge_2 p Hp) as P2.
  set (f := fun x => (a * x) mod p).
  assert (INJ : forall x y, 1 <= x < p -> 1 <= y < p -> f x = f y -> x = y).
  { intros x y Hx Hy E. unfold f in E. assert (D : (p | a * (x - y))).
    { replace (a * (x - y)) with (a * x - a * y) by ring. apply Z.mod_divide; [lia|]. rewrite Zminus_mod, E, Z.sub_diag. apply Z.mod_0_l. lia. }
    destruct (prime_mult p Hp _ _ D) as [D'|D']; [contradiction|]. destruct D' as [k D']. assert (k = 0) by nia. subst k. lia. }
  assert (RNG : forall x, 1 <= x < p -> 1 <= f x < p).
  { intros x Hx. unfold f. pose proof (Z.mod_pos_bound (a * x) p ltac:(lia)). assert ((a * x) mod p <> 0); [|lia].
    intros E. apply Z.mod_divide in E; [|lia]. destruct (prime_mult p Hp _ _ E) as [D|D]; [contradiction|].
    apply Z.divide_pos_le in D; lia. }
  assert (PERM : Permutation (map f (upto p)) (upto p)).
  { apply NoDup_Permutation_bis.
    - assert (G : forall l, NoDup l -> (forall x, In x l -> 1 <= x < p) -> NoDup (map f l)).
      { induction l as [|x l IH]; intros N R; cbn [map]; [constructor|]. inversion N; subst. constructor.
        - rewrite in_map_iff. intros (y & E & I). apply INJ in E; [subst; auto|apply R; cbn; auto|apply R; cbn; auto].
        - apply IH; auto. intros; apply R; cbn; auto. }
      apply G; [apply upto_NoDup|]. intros x I. apply upto_In; auto.
    - rewrite map_length. auto.
    - intros x I. apply in_map_iff in I. destruct I as (y & <- & I). apply upto_In, RNG, upto_In. auto. }
  pose proof (prodl_map a p (upto p) ltac:(lia)) as E. fold f in E. rewrite (prodl_perm _ _ PERM) in E.
  replace (Z.of_nat (length (upto p))) with (p - 1) in E by (unfold upto; rewrite map_length, seq_length; lia).
  assert (D : (p | prodl (upto p) * (a ^ (p - 1) - 1))).
  { replace (prodl (upto p) * (a ^ (p - 1) - 1)) with (a ^ (p - 1) * prodl (upto p) - prodl (upto p)) by ring.
    apply Z.mod_divide; [lia|]. rewrite Zminus_mod, <- E, Z.sub_diag. apply Z.mod_0_l. lia. }
  apply Gauss in D; [|apply prodl_coprime; auto; intros x; apply upto_In].
  destruct D as [k D]. replace (a ^ (p - 1)) with (1 + k * p) by lia. rewrite Z.mod_add, Z.mod_small; lia.
Qed.

Lemma sqrt_one : forall p x, prime p -> 2 < p -> x ^ 2 mod p = 1 -> x mod p = 1 \/ x mod p = p - 1.
Proof.
  intros p x Hp P2 E. assert (D : (p | (x - 1) * (x + 1))).
  { replace ((x - 1) * (x + 1)) with (x ^ 2 - 1) by ring. apply Z.mod_divide; [lia|].
    rewrite Zminus_mod, E, (Z.mod_small 1), Z.sub_diag by lia. apply Z.mod_0_l. lia. }
  destruct (prime_mult p Hp _ _ D) as [[k K]|[k K]]; [left|right].
  - replace x with (1 + k * p) by lia. rewrite Z.mod_add, Z.mod_small; lia.
  - replace x with ((p - 1) + (k - 1) * p) by lia. rewrite Z.mod_add, Z.mod_small; lia.
Qed.

Lemma pow_odd_part : forall n, 0 < n -> exists s d, 0 <= s /\ n = 2 ^ s * d /\ Z.odd d = true.
Proof.
  intros n H. assert (P : 0 <= n) by lia. revert H. pattern n. apply Z_lt_induction; auto. clear n P. intros n IH H.
  destruct (Z.odd n) eqn:O. { exists 0, n. split; [lia|]. split; [change (2 ^ 0) with 1; lia|auto]. }
  rewrite <- Z.negb_even in O. apply negb_false_iff, Z.even_spec in O. destruct O as [m ->].
  destruct (IH m) as (s & d & Hs & E & O); [lia|lia|]. exists (s + 1), d. split; [lia|]. split; [|auto].
  rewrite Z.pow_add_r, E by lia. ring.
Qed.

(** Every odd prime is a strong probable prime to every base it does not divide. *)
Theorem prime_strong : forall p a, prime p -> 2 < p -> ~ (p | a) -> strong_probable_prime p a.
Proof.
  intros p a Hp P2 Ha. destruct (pow_odd_part (p - 1)) as (s & d & Hs & E & O); [lia|]. exists s, d.
  split; [auto|]. split; [auto|]. split; [auto|]. pose proof (fermat p a Hp Ha) as F. rewrite E in F.
  assert (G : forall k, 0 <= k -> k <= s -> a ^ (2 ^ k * d) mod p = 1 -> a ^ d mod p = 1 \/ exists r, 0 <= r < s /\ a ^ (2 ^ r * d) mod p = p - 1).
  { intros k Hk. pattern k. apply natlike_ind; auto; clear k Hk.
    - intros _ H. left. rewrite Z.pow_0_r, Z.mul_1_l in H. auto.
    - intros k Hk IH HS H. assert (0 < d) by (apply (Z.mul_pos_cancel_l (2 ^ s)); [apply Z.pow_pos_nonneg; lia|lia]).
      assert (X : a ^ (2 ^ Z.succ k * d) = (a ^ (2 ^ k * d)) ^ 2).
      { rewrite <- Z.pow_mul_r; [|apply Z.mul_nonneg_nonneg; [apply Z.pow_nonneg|]; lia|lia]. f_equal. rewrite Z.pow_succ_r by lia. ring. }
      rewrite X in H. destruct (sqrt_one p _ Hp P2 H) as [H1|H1]; [apply IH; [lia|auto]|]. right. exists k. split; [lia|auto]. }
  apply (G s); auto. lia.
Qed.
