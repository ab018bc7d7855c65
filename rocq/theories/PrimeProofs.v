(** The statements of ThmPrime.v, derived from the facts. *)
From Coq Require Import ZArith List Bool Lia Znumtheory.
Require Import Verif.Spec Verif.Base Verif.Monad Verif.Wp Verif.ModelLimb Verif.LimbFacts Verif.LimbProofs Verif.ModelBuf Verif.SpecBuf Verif.BufFacts Verif.BufFacts3
  Verif.BufProofs Verif.CmpFacts Verif.ModelAdd Verif.AddFacts2 Verif.SpecMont Verif.MontFacts5 Verif.MontFacts6 Verif.SpecEuclid Verif.ModelHex Verif.ModelPrime Verif.SpecPrime
  Verif.PrimeFacts Verif.PrimeFacts2 Verif.PrimeFacts3.
Import ListNotations.
Open Scope Z_scope.

Section S.
Context {c : cfg}.

Lemma screen_correct : forall p s0 s1, mp_ok p -> 0 < mp_len p -> mp_ok (NE s0) -> mp_ok (NE s1) ->
  nlimbs p <= zlen s0 -> nlimbs p <= zlen s1 -> gcd_len_ok (LB * nlimbs p) ->
  exists b, returns (ct_composite_test_small_prime_gcd_mp p s0 s1) (Ok (chc b)) /\ (b = true <-> has_small_factor (screen_limit p) (mpval p)).
Proof.
  intros p s0 s1 Hp LP H0 H1 L0 L1 HG.
  assert (Y : yields (ct_composite_test_small_prime_gcd_mp p s0 s1) (fun r => exists b, r = Ok (chc b) /\ (b = true <-> has_small_factor (screen_limit p) (mpval p)))).
  { apply wp_yields. apply wp_screen; auto. intros b H. exists b. auto. }
  destruct Y as (r & R & b & -> & H). exists b. auto.
Qed.

Lemma screen_limit_pos : forall p, 29 <= screen_limit p.
Proof. intros. unfold screen_limit. repeat match goal with |- context [if ?b then _ else _] => destruct b end; lia. Qed.

Lemma screen_prime : forall p s0 s1, mp_ok p -> mp_ok (NE s0) -> mp_ok (NE s1) ->
  nlimbs p <= zlen s0 -> nlimbs p <= zlen s1 -> gcd_len_ok (LB * nlimbs p) -> prime (mpval p) -> screen_limit p < mpval p ->
  returns (ct_composite_test_small_prime_gcd_mp p s0 s1) (Ok (chc false)).
Proof.
  intros p s0 s1 Hp H0 H1 L0 L1 HG HP HL. pose proof (screen_limit_pos p). pose proof (mpval_bound p Hp) as BP. pose proof (mp_len_nonneg p).
  assert (LP : 0 < mp_len p) by (destruct (Z.eq_dec (mp_len p) 0) as [E|E]; [rewrite E in BP; cbn in BP|]; lia).
  destruct (screen_correct p s0 s1 Hp LP H0 H1 L0 L1 HG) as (b & R & HB). destruct b; auto. exfalso.
  destruct (proj1 HB eq_refl) as (q & Hq & Lq & Dq). pose proof (prime_ge_2 q Hq). destruct (prime_divisors _ HP q Dq) as [D|[D|[D|D]]]; lia.
Qed.

Lemma screen_empty : forall p s0 s1, mp_len p = 0 -> returns (ct_composite_test_small_prime_gcd_mp p s0 s1) (Ok (chc true)).
Proof.
  intros p s0 s1 H. apply wp_ret_eq. unfold ct_composite_test_small_prime_gcd_mp. apply wp_mif; intros E.
  - apply wp_bind, (wp_lc_new true); [reflexivity|]. apply wp_ret. reflexivity.
  - exfalso. rewrite empty_nlimbs in E. apply Z.eqb_neq in E. pose proof (nlimbs_spec p). pose proof LB_pos. rewrite H in *.
    destruct (Z_le_gt_dec 1 (nlimbs p)); [|lia]. pf (mul_le_l LB 1 (nlimbs p)). lia.
Qed.

Lemma screen_errors : forall p s0 s1, 0 < mp_len p -> zlen s0 < nlimbs p \/ zlen s1 < nlimbs p ->
  returns (ct_composite_test_small_prime_gcd_mp p s0 s1) (Err ScreenInsufficientScratchSpace).
Proof.
  intros p s0 s1 LP H. apply wp_ret_eq. unfold ct_composite_test_small_prime_gcd_mp. apply wp_mif; intros E.
  { rewrite empty_nlimbs in E. pose proof (nlimbs_spec p). apply Z.eqb_eq in E. rewrite E in *. lia. } fold (nlimbs p).
  apply wp_mif; intros E1; [apply wp_ret; auto|]. apply wp_mif; intros E2; [apply wp_ret; auto|]. lia.
Qed.

Lemma products_correct : forall i q, (i < 9)%nat -> prime q ->
  ((q | mpval (BE (nth i SMALL_ODD_PRIME_PRODUCTS []))) <-> 2 < q <= nth i [7; 13; 29; 53; 101; 193; 379; 739; 1471] 0).
Proof. exact product_primes. Qed.

Lemma mr_correct : forall base p radix s0 s1 a, mp_ok base -> mp_ok p -> mp_ok radix -> mp_ok (NE s0) -> mp_ok (NE s1) ->
  Z.odd (mpval p) = true -> 2 < mpval p -> len_compat base (mp_len p) -> 0 < mp_len base -> len_compat radix (mp_len p) -> nlimbs radix = nlimbs p ->
  nlimbs p <= zlen s0 -> nlimbs p <= zlen s1 -> mpval base = (a * mg_radix p) mod mpval p -> mpval radix = mg_radix p mod mpval p ->
  mg_carry_ok p -> mg_room (NE s0) p -> mg_room (NE s1) p ->
  exists b, returns (ct_prime_test_miller_rabin_mp base p radix s0 s1) (Ok (chc b)) /\ (b = true <-> strong_probable_prime (mpval p) a).
Proof.
  intros base p radix s0 s1 a Hb Hp Hr H0 H1 HO P2 Cb Lb Cr Nr L0 L1 Ea E1 HC R0 R1.
  assert (Fa : inform p a (mpval base)) by (rewrite Ea; apply inform_intro; lia).
  assert (F1 : inform p 1 (mpval radix)) by (rewrite E1; rewrite <- (Z.mul_1_l (mg_radix p)) at 1; apply inform_intro; lia).
  assert (Y : yields (ct_prime_test_miller_rabin_mp base p radix s0 s1) (fun r => exists b, r = Ok (chc b) /\ (b = true <-> strong_probable_prime (mpval p) a))).
  { apply wp_yields. apply wp_miller_rabin with (a := a); auto. intros b H. exists b. auto. }
  destruct Y as (r & R & b & -> & H). exists b. auto.
Qed.

Lemma mr_prime : forall base p radix s0 s1 a, mp_ok base -> mp_ok p -> mp_ok radix -> mp_ok (NE s0) -> mp_ok (NE s1) ->
  prime (mpval p) -> 2 < mpval p -> ~ (mpval p | a) -> len_compat base (mp_len p) -> 0 < mp_len base -> len_compat radix (mp_len p) -> nlimbs radix = nlimbs p ->
  nlimbs p <= zlen s0 -> nlimbs p <= zlen s1 -> mpval base = (a * mg_radix p) mod mpval p -> mpval radix = mg_radix p mod mpval p ->
  mg_carry_ok p -> mg_room (NE s0) p -> mg_room (NE s1) p ->
  returns (ct_prime_test_miller_rabin_mp base p radix s0 s1) (Ok (chc true)).
Proof.
  intros base p radix s0 s1 a Hb Hp Hr H0 H1 HP P2 Ha Cb Lb Cr Nr L0 L1 Ea E1 HC R0 R1.
  assert (HO : Z.odd (mpval p) = true).
  { destruct (Z.odd (mpval p)) eqn:O; auto. exfalso. rewrite <- Z.negb_even in O. apply negb_false_iff, Z.even_spec in O. destruct O as [k O].
    destruct (prime_divisors _ HP 2) as [D|[D|[D|D]]]; try lia. exists k. lia. }
  destruct (mr_correct base p radix s0 s1 a) as (b & R & HB); auto. rewrite (proj2 HB) in R; auto. apply prime_strong; auto.
Qed.

Lemma mr_errors : forall base p radix s0 s1, mp_ok base -> mp_ok p -> mp_ok radix ->
  let call := ct_prime_test_miller_rabin_mp base p radix s0 s1 in
  (Z.odd (mpval p) = false -> returns call (Err MrInvalidCandidate)) /\
  (Z.odd (mpval p) = true -> ~ len_compat base (mp_len p) -> returns call (Err MrInconsistentBaseLength)) /\
  (Z.odd (mpval p) = true -> len_compat base (mp_len p) -> mpval base < mpval p -> ~ len_compat radix (mp_len p) -> returns call (Err MrInconsistentMgRadixModPLength)) /\
  (Z.odd (mpval p) = true -> len_compat base (mp_len p) -> mpval base < mpval p -> len_compat radix (mp_len p) -> mpval radix < mpval p ->
   zlen s0 < nlimbs p \/ zlen s1 < nlimbs p -> returns call (Err MrInsufficientScratchSpace)).
Proof.
  intros base p radix s0 s1 Hb Hp Hr call. pose proof (mp_len_nonneg p) as Lp. subst call. unfold ct_prime_test_miller_rabin_mp. fold (nlimbs p).
  split; [|split; [|split]]; intros HO; intros; apply wp_ret_eq; apply wp_bind, wp_test_bit; auto; try lia; rewrite Z.bit0_odd, HO, lc_unwrap_chc; apply wp_mif; intros E; try discriminate; clear E.
  - apply wp_ret. auto.
  - apply wp_bind, wp_compat_not; auto. apply wp_mif; intros E; [|discriminate]. apply wp_ret. auto.
  - apply wp_bind, wp_compat; auto. apply wp_mif; intros E; [discriminate|]. apply wp_bind, wp_dassert_lt; auto.
    apply wp_bind, wp_compat_not; auto. apply wp_mif; intros E2; [|discriminate]. apply wp_ret. auto.
  - apply wp_bind, wp_compat; auto. apply wp_mif; intros E; [discriminate|]. apply wp_bind, wp_dassert_lt; auto.
    apply wp_bind, wp_compat; auto. apply wp_mif; intros E2; [discriminate|]. apply wp_bind, wp_dassert_lt; auto.
    apply wp_mif; intros E3; [apply wp_ret; auto|]. apply wp_mif; intros E4; [apply wp_ret; auto|]. lia.
Qed.

End S.
