(** The prime wheel sieve: statements for ThmSieve.v. *)
From Coq Require Import ZArith List Bool Lia Znumtheory.
Require Import Verif.Spec Verif.Monad Verif.Base Verif.Wp Verif.ModelLimb Verif.ModelBuf Verif.SpecBuf Verif.BufProofs Verif.LimbProofs.
Require Import Verif.SpecSieve Verif.ModelSieve Verif.SieveFacts.
Import ListNotations.
Open Scope Z_scope.

Lemma sieve_correct : forall (c : cfg) n k, mp_ok n ->
  yields (let! w := lvl1_start_geq_than n in lvl1_produce_deltas k w) (fun '(ds, _) =>
    length ds = k /\ enumerates (mpval n) (Z.max (mpval n) 2) ds).
Proof.
  intros c n k Hn. apply wp_returns.
  apply wp_bind, wp_lvl1_start; auto. intros w Hw. eapply wp_lvl1_deltas; [exact Hw|]. auto.
Qed.

Lemma prime_check : forall p, 1 < p -> forallb (fun n => Z.gcd n p =? 1) (map Z.of_nat (seq 1 (Z.to_nat p - 1))) = true -> prime p.
Proof.
  intros p Hp H. constructor; auto. intros n Hn. apply Zgcd_1_rel_prime. rewrite forallb_forall in H. apply Z.eqb_eq, H.
  rewrite <- (Z2Nat.id n) by lia. apply in_map, in_seq. lia.
Qed.

Lemma wheel_primes_are : forall (c : cfg) p, In p wheel_primes <-> prime p /\ p <= (if limb64 c then 47 else 23).
Proof.
  intros c p.
  assert (PR : Forall (fun p => prime p) [2; 3; 5; 7; 11; 13; 17; 19; 23; 29; 31; 37; 41; 43; 47]).
  { repeat (apply Forall_cons; [apply prime_check; [lia|vm_compute; reflexivity]|]). apply Forall_nil. }
  assert (NP : forall n d, 1 < d < n -> (d | n) -> ~ prime n).
  { intros n d Hd D P. apply prime_divisors with (a := d) in D; auto. lia. }
  split.
  - intros H. rewrite Forall_forall in PR. split.
    + apply PR. unfold wheel_primes in H. destruct (limb64 c); auto. cbn in H |- *. tauto.
    + unfold wheel_primes in H. destruct (limb64 c); cbn in H; lia.
  - intros [P L]. destruct P as [P1 P2] eqn:EP. clear EP.
    assert (I : In p (map Z.of_nat (seq 2 (Z.to_nat (if limb64 c then 47 else 23) - 1)))).
    { rewrite <- (Z2Nat.id p) by lia. apply in_map, in_seq. destruct (limb64 c); lia. }
    clear P1 P2 L.
    assert (D : forall d, 1 < d < p -> p mod d = 0 -> False).
    { intros d Hd Hm. apply (NP p d); auto. apply Z.mod_divide; auto; lia. }
    unfold wheel_primes. destruct (limb64 c); vm_compute in I; clear PR NP P; decompose [or] I; try contradiction; clear I;
      match goal with H : _ = p |- _ => rewrite <- H in *; clear H end; try (cbn; tauto);
      exfalso; first [apply (D 2); [lia|reflexivity]|apply (D 3); [lia|reflexivity]|apply (D 5); [lia|reflexivity]].
Qed.

Lemma unsieved_coprime : forall (c : cfg) y, unsieved y <-> Z.gcd y wheel_primorial = 1.
Proof.
  intros c y. split.
  - intros U. apply Zgcd_1_rel_prime.
    assert (PR : forall p, In p wheel_primes -> prime p) by (intros p Hp; apply wheel_primes_are in Hp; tauto).
    unfold unsieved in U. unfold wheel_primorial. revert U PR. generalize wheel_primes as l. induction l as [|p l IH]; intros U PR; cbn.
    + apply rel_prime_sym, rel_prime_1.
    + apply rel_prime_mult.
      * apply rel_prime_sym. apply prime_rel_prime; [apply PR; left; auto|apply U; left; auto].
      * apply IH; intros; [apply U|apply PR]; right; auto.
  - intros G p Hp D. apply wheel_primes_are in Hp as PP. destruct PP as [PP _]. destruct PP as [PP _].
    assert (X : (p | Z.gcd y wheel_primorial)) by (apply Z.gcd_greatest; auto; apply prim_div; auto).
    rewrite G in X. apply Z.divide_1_r in X. lia.
Qed.

Lemma prime_unsieved : forall (c : cfg) q, prime q -> ~ In q wheel_primes -> unsieved q.
Proof.
  intros c q Hq NI p Hp D. apply wheel_primes_are in Hp as PP. destruct PP as [PP _].
  apply NI. destruct (prime_div_prime p q PP Hq D). auto.
Qed.

Lemma enumerates_cover : forall (c : cfg) ds x a q, enumerates x a ds -> unsieved q -> a <= q -> q <= candidate x ds (length ds) -> ds <> [] ->
  exists k, (0 < k <= length ds)%nat /\ q = candidate x ds k.
Proof.
  induction ds as [|d ds IH]; intros x a q E U A L N; [congruence|].
  destruct E as (E1 & E2 & E3 & E4).
  assert (q >= x + d) by (destruct (Z.lt_ge_cases q (x + d)); [exfalso; apply (E3 q); auto|]; lia).
  destruct (Z.eq_dec q (x + d)) as [->|NE].
  - exists 1%nat. split; [cbn; lia|]. unfold candidate. cbn. lia.
  - destruct ds as [|d' ds].
    + exfalso. unfold candidate in L. cbn in L. lia.
    + destruct (IH (x + d) (x + d + 1) q E4 U ltac:(lia)) as (k & Hk & ->); [|congruence|].
      * unfold candidate in *. cbn [length firstn fold_right] in *. lia.
      * exists (S k). split; [cbn [length] in *; lia|]. unfold candidate. cbn [firstn fold_right]. lia.
Qed.

Lemma sieve_no_prime_skipped : forall (c : cfg) n k q, mp_ok n -> (0 < k)%nat -> prime q -> ~ In q wheel_primes -> mpval n <= q ->
  yields (let! w := lvl1_start_geq_than n in lvl1_produce_deltas k w) (fun '(ds, _) =>
    length ds = k /\ (q <= candidate (mpval n) ds k -> exists i, (0 < i <= k)%nat /\ q = candidate (mpval n) ds i)).
Proof.
  intros c n k q Hn Hk Hq NI Hle. destruct (sieve_correct c n k Hn) as ([ds w] & R & L & E). exists (ds, w). split; auto. split; auto.
  intros Hq2. subst k. eapply enumerates_cover; eauto.
  - apply prime_unsieved; auto.
  - destruct Hq as [Hq _]. lia.
  - destruct ds; [cbn in Hk; lia|congruence].
Qed.

Lemma enumerates_all : forall (c : cfg) ds x a i, enumerates x a ds -> (0 < i <= length ds)%nat ->
  unsieved (candidate x ds i) /\ a <= candidate x ds i /\ (forall j, (0 < j < i)%nat -> candidate x ds j < candidate x ds i).
Proof.
  induction ds as [|d ds IH]; intros x a i E Hi; [cbn in Hi; lia|].
  destruct E as (E1 & E2 & E3 & E4). destruct i as [|i]; [lia|].
  destruct i as [|i].
  - unfold candidate. cbn [firstn fold_right]. rewrite Z.add_0_r. split; auto. split; auto. intros j Hj; lia.
  - destruct (IH (x + d) (x + d + 1) (S i) E4) as (H1 & H2 & H3); [cbn [length] in Hi; lia|].
    assert (C : forall j, candidate x (d :: ds) (S j) = candidate (x + d) ds j) by (intros; unfold candidate; cbn [firstn fold_right]; lia).
    rewrite C. split; auto. split; [lia|]. intros [|[|j]] Hj; [lia| |].
    + rewrite C. unfold candidate at 1. cbn [firstn fold_right]. lia.
    + rewrite C. apply H3. lia.
Qed.

Lemma sieve_candidates : forall (c : cfg) n k, mp_ok n ->
  yields (let! w := lvl1_start_geq_than n in lvl1_produce_deltas k w) (fun '(ds, _) =>
    forall i, (0 < i <= k)%nat -> Z.gcd (candidate (mpval n) ds i) wheel_primorial = 1 /\ mpval n <= candidate (mpval n) ds i /\
      2 <= candidate (mpval n) ds i /\ forall j, (0 < j < i)%nat -> candidate (mpval n) ds j < candidate (mpval n) ds i).
Proof.
  intros c n k Hn. destruct (sieve_correct c n k Hn) as ([ds w] & R & L & E). exists (ds, w). split; auto.
  intros i Hi. subst k. destruct (enumerates_all c ds _ _ i E Hi) as (H1 & H2 & H3). split; [apply unsieved_coprime; auto|]. split; [lia|]. split; [lia|auto].
Qed.

Lemma find_ct_correct : forall (c : cfg) v val, 0 < zlen v -> 2 * zlen v < 2 ^ UW -> ascending v ->
  (forall i, 0 <= i < zlen v -> 0 <= nth (Z.to_nat i) v 0 < 256) -> 0 <= val < 256 -> val <= nth (Z.to_nat (zlen v - 1)) v 0 ->
  yields (ct_find_first_ge_than v val) (fun i =>
    0 <= i < zlen v /\ val <= nth (Z.to_nat i) v 0 /\ forall j, 0 <= j < i -> nth (Z.to_nat j) v 0 < val).
Proof. intros. apply wp_returns. apply wp_ct_find; auto. Qed.

Lemma find_cnst_correct : forall (c : cfg) v val, 0 < zlen v -> 2 * zlen v < 2 ^ UW -> ascending v ->
  val <= nth (Z.to_nat (zlen v - 1)) v 0 ->
  yields (cnst_find_first_ge_than v val) (fun i =>
    0 <= i < zlen v /\ val <= nth (Z.to_nat i) v 0 /\ forall j, 0 <= j < i -> nth (Z.to_nat j) v 0 < val).
Proof. intros. apply wp_returns. apply wp_cnst_find; auto. Qed.
