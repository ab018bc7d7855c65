(** Proofs of the theorems about division of powers of two and of shifted integers. *)
From Coq Require Import ZArith List Bool Lia.
Require Import Verif.Spec Verif.Monad Verif.Base Verif.Wp Verif.ModelLimb Verif.LimbFacts Verif.ModelBuf Verif.SpecBuf Verif.BufFacts Verif.BufFacts2 Verif.UpFacts Verif.BufProofs Verif.ModelDiv Verif.SpecDiv
  Verif.DivFacts Verif.DivFacts2 Verif.DivFacts3 Verif.DivFacts4 Verif.DivFacts8 Verif.DivFacts12 Verif.DivProofs.
Open Scope Z_scope.

Lemma fits_not_over : forall (c : cfg) b x, mp_ok b -> x < 256 ^ mp_len b -> B ^ nlimbs b <= x -> False.
Proof. intros c b x Hb H1 H2. pose proof (p256_B (mp_len b) (mp_len_nonneg b)). unfold nlimbs in H2. lia. Qed.

Lemma pow2_correct : forall (c : cfg) k r d D n q, 0 <= k -> pow2_exp_ok k -> mp_ok r -> divisor_for d D -> byte_len D n -> q_ok q ->
  let U := 2 ^ k in let len := k / 8 + 1 in
  Z.min n len <= mp_len r -> match q with Some b => len <= mp_len b + n | None => True end -> q_fits q (U / D) ->
  yields (ct_div_pow2_mp k r d q) (fun '(res, r', q') =>
    res = Ok tt /\ becomes r r' (U mod D) /\ o_same q q' /\ q_is q' (U / D)).
Proof.
  intros c k r d D n q Hk Hkb Hr Hd Hn Hq U len HR HL HF. apply divisor_ok in Hd. destruct Hd as [Hd E]. pose proof (divisor_len _ _ _ Hd E Hn) as EL.
  apply wp_yields. apply wp_div_pow2; auto; rewrite ?E, ?EL; fold U len.
  - right. right. left. exact HF.
  - intros SH. destruct q; [|contradiction]. lia.
  - intros _ RS. lia.
  - intros _ _ _ r' q' O S OQ V QV. split; auto. split; [split; auto|]. auto.
  - intros _ _ OV. exfalso. destruct q as [b|]; [|contradiction]. apply (fits_not_over c b (U / D)); auto.
Qed.

Lemma pow2_short_correct : forall (c : cfg) k r d D n b, 0 <= k -> pow2_exp_ok k -> mp_ok r -> divisor_for d D -> byte_len D n -> mp_ok b ->
  mp_len b + n < k / 8 + 1 -> returns (ct_div_pow2_mp k r d (Some b)) (Err InsufficientQuotientSpace, r, Some b).
Proof.
  intros c k r d D n b Hk Hkb Hr Hd Hn Hq HL. apply divisor_ok in Hd. destruct Hd as [Hd E]. pose proof (divisor_len _ _ _ Hd E Hn) as EL.
  assert (X : wp (ct_div_pow2_mp k r d (Some b)) (fun x => x = (Err InsufficientQuotientSpace, r, Some b))).
  { apply wp_div_pow2; auto; rewrite ?EL; try (intros; lia). }
  apply wp_returns in X. destruct X as (x & R & ->). auto.
Qed.

Lemma pow2_rshort_correct : forall (c : cfg) k r d D n q, 0 <= k -> pow2_exp_ok k -> mp_ok r -> divisor_for d D -> byte_len D n -> q_ok q ->
  match q with Some b => k / 8 + 1 <= mp_len b + n | None => True end -> mp_len r < Z.min n (k / 8 + 1) ->
  returns (ct_div_pow2_mp k r d q) (Err InsufficientRemainderSpace, r, q).
Proof.
  intros c k r d D n q Hk Hkb Hr Hd Hn Hq HL HR. apply divisor_ok in Hd. destruct Hd as [Hd E]. pose proof (divisor_len _ _ _ Hd E Hn) as EL.
  assert (X : wp (ct_div_pow2_mp k r d q) (fun x => x = (Err InsufficientRemainderSpace, r, q))).
  { apply wp_div_pow2; auto; rewrite ?EL; auto; try (intros; lia). intros SH. destruct q; [lia|contradiction]. }
  apply wp_returns in X. destruct X as (x & R & ->). auto.
Qed.

Lemma pow2_over_correct : forall (c : cfg) k r d D n b, 0 <= k -> pow2_exp_ok k -> mp_ok r -> divisor_for d D -> byte_len D n -> mp_ok b ->
  n <= mp_len r -> B ^ nlimbs b <= 2 ^ k / D ->
  yields (ct_div_pow2_mp k r d (Some b)) (fun '(res, r', q') => res = Err InsufficientQuotientSpace /\ same_shape r r' /\ o_same (Some b) q').
Proof.
  intros c k r d D n b Hk Hkb Hr Hd Hn Hq HR HO. apply divisor_ok in Hd. destruct Hd as [Hd E]. pose proof (divisor_len _ _ _ Hd E Hn) as EL.
  apply wp_yields. apply wp_div_pow2; auto; rewrite ?E, ?EL; cbn.
  - auto.
  - intros _. split; auto. split; [apply shape_refl|]. split; [auto|apply shape_refl].
  - intros _ RS. lia.
  - intros _ _ FT. exfalso. eapply fits_not_over; eauto.
Qed.

Lemma pow2_mod_correct : forall (c : cfg) k r d D n, 0 <= k -> pow2_exp_ok k -> mp_ok r -> divisor_for d D -> byte_len D n ->
  (Z.min n (k / 8 + 1) <= mp_len r -> yields (ct_mod_pow2_mp k r d) (fun '(res, r') => res = Ok tt /\ becomes r r' (2 ^ k mod D))) /\
  (mp_len r < Z.min n (k / 8 + 1) -> returns (ct_mod_pow2_mp k r d) (Err InsufficientRemainderSpace, r)).
Proof.
  intros c k r d D n Hk Hkb Hr Hd Hn. apply divisor_ok in Hd. destruct Hd as [Hd E]. pose proof (divisor_len _ _ _ Hd E Hn) as EL. unfold ct_mod_pow2_mp.
  split; intros HR.
  - apply wp_yields. apply wp_bind. apply wp_div_pow2; cbn; auto; rewrite ?E, ?EL; try tauto; try lia.
    intros _ _ _ r' q' O S OQ V _. apply wp_ret. split; auto. split; auto.
  - assert (X : wp (ct_mod_pow2_mp k r d) (fun x => x = (Err InsufficientRemainderSpace, r))).
    { apply wp_bind. apply wp_div_pow2; cbn; auto; rewrite ?E, ?EL; try tauto; try lia. }
    apply wp_returns in X. destruct X as (x & R & ->). auto.
Qed.

Lemma lsh_correct : forall (c : cfg) u a e d D n q, mp_ok u -> 0 <= a <= mp_len u -> mpval u < 256 ^ a -> 0 <= e -> a + e + LB < 2 ^ UW ->
  divisor_for d D -> byte_len D n -> q_ok q ->
  let U := mpval u * 256 ^ e in
  Z.min n (a + e) <= mp_len u -> match q with Some b => a + e <= mp_len b + n | None => True end -> q_fits q (U / D) ->
  yields (ct_div_lshifted_mp_mp u a e d q) (fun '(res, u', q') =>
    res = Ok tt /\ becomes u u' (U mod D) /\ o_same q q' /\ q_is q' (U / D)).
Proof.
  intros c u a e d D n q Hu Ha Hv He HU Hd Hn Hq U HR HL HF. apply divisor_ok in Hd. destruct Hd as [Hd E]. pose proof (divisor_len _ _ _ Hd E Hn) as EL.
  apply wp_yields. apply wp_div_lsh; auto; rewrite ?E, ?EL; fold U; try lia.
  - right. right. left. exact HF.
  - intros SH. destruct q; [|contradiction]. lia.
  - intros _ _ _ u' q' O S OQ V QV. split; auto. split; [split; auto|]. auto.
  - intros _ _ OV. exfalso. destruct q as [b|]; [|contradiction]. apply (fits_not_over c b (U / D)); auto.
Qed.

Lemma lsh_short_correct : forall (c : cfg) u a e d D n b, mp_ok u -> 0 <= a <= mp_len u -> mpval u < 256 ^ a -> 0 <= e -> a + e + LB < 2 ^ UW ->
  divisor_for d D -> byte_len D n -> mp_ok b -> mp_len b + n < a + e ->
  returns (ct_div_lshifted_mp_mp u a e d (Some b)) (Err InsufficientQuotientSpace, u, Some b).
Proof.
  intros c u a e d D n b Hu Ha Hv He HU Hd Hn Hq HL. apply divisor_ok in Hd. destruct Hd as [Hd E]. pose proof (divisor_len _ _ _ Hd E Hn) as EL.
  assert (X : wp (ct_div_lshifted_mp_mp u a e d (Some b)) (fun x => x = (Err InsufficientQuotientSpace, u, Some b))).
  { apply wp_div_lsh; auto; rewrite ?EL; try (intros; lia). }
  apply wp_returns in X. destruct X as (x & R & ->). auto.
Qed.

Lemma lsh_rshort_correct : forall (c : cfg) u a e d D n q, mp_ok u -> 0 <= a <= mp_len u -> mpval u < 256 ^ a -> 0 <= e -> a + e + LB < 2 ^ UW ->
  divisor_for d D -> byte_len D n -> q_ok q ->
  match q with Some b => a + e <= mp_len b + n | None => True end -> mp_len u < Z.min n (a + e) ->
  returns (ct_div_lshifted_mp_mp u a e d q) (Err InsufficientRemainderSpace, u, q).
Proof.
  intros c u a e d D n q Hu Ha Hv He HU Hd Hn Hq HL HR. apply divisor_ok in Hd. destruct Hd as [Hd E]. pose proof (divisor_len _ _ _ Hd E Hn) as EL.
  assert (X : wp (ct_div_lshifted_mp_mp u a e d q) (fun x => x = (Err InsufficientRemainderSpace, u, q))).
  { apply wp_div_lsh; auto; rewrite ?EL; auto; try (intros; lia). intros SH. destruct q; [lia|contradiction]. }
  apply wp_returns in X. destruct X as (x & R & ->). auto.
Qed.

Lemma lsh_over_correct : forall (c : cfg) u a e d D n b, mp_ok u -> 0 <= a <= mp_len u -> mpval u < 256 ^ a -> 0 <= e -> a + e + LB < 2 ^ UW ->
  divisor_for d D -> byte_len D n -> mp_ok b -> n <= mp_len u -> B ^ nlimbs b <= mpval u * 256 ^ e / D ->
  yields (ct_div_lshifted_mp_mp u a e d (Some b)) (fun '(res, u', q') => res = Err InsufficientQuotientSpace /\ same_shape u u' /\ o_same (Some b) q').
Proof.
  intros c u a e d D n b Hu Ha Hv He HU Hd Hn Hq HR HO. apply divisor_ok in Hd. destruct Hd as [Hd E]. pose proof (divisor_len _ _ _ Hd E Hn) as EL.
  apply wp_yields. apply wp_div_lsh; auto; rewrite ?E, ?EL; cbn -[Z.mul Z.add]; try lia.
  - intros _. split; auto. split; [apply shape_refl|]. split; [auto|apply shape_refl].
  - intros _ _ FT. exfalso. eapply fits_not_over; eauto.
Qed.

Lemma lsh_mod_correct : forall (c : cfg) u a e d D n, mp_ok u -> 0 <= a <= mp_len u -> mpval u < 256 ^ a -> 0 <= e -> a + e + LB < 2 ^ UW ->
  divisor_for d D -> byte_len D n ->
  (Z.min n (a + e) <= mp_len u -> yields (ct_mod_lshifted_mp_mp u a e d) (fun '(res, u') => res = Ok tt /\ becomes u u' ((mpval u * 256 ^ e) mod D))) /\
  (mp_len u < Z.min n (a + e) -> returns (ct_mod_lshifted_mp_mp u a e d) (Err InsufficientRemainderSpace, u)).
Proof.
  intros c u a e d D n Hu Ha Hv He HU Hd Hn. apply divisor_ok in Hd. destruct Hd as [Hd E]. pose proof (divisor_len _ _ _ Hd E Hn) as EL.
  split; intros HR.
  - apply wp_yields. apply wp_bind. apply wp_div_lsh; cbn -[Z.mul Z.add]; auto; rewrite ?E, ?EL; try tauto; try lia.
    intros _ _ _ r' q' O S OQ V _. apply wp_ret. split; auto. split; auto.
  - assert (X : wp (ct_mod_lshifted_mp_mp u a e d) (fun x => x = (Err InsufficientRemainderSpace, u))).
    { apply wp_bind. apply wp_div_lsh; cbn -[Z.mul Z.add]; auto; rewrite ?E, ?EL; try tauto; try lia. }
    apply wp_returns in X. destruct X as (x & R & ->). auto.
Qed.
