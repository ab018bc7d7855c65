(** Proofs of the theorems in ThmMul.v. *)
From Coq Require Import ZArith List Bool Lia.
Require Import Verif.Spec Verif.Monad Verif.Base Verif.Wp Verif.ModelLimb Verif.LimbFacts Verif.ModelBuf Verif.SpecBuf
  Verif.BufFacts Verif.BufFacts2 Verif.BufProofs Verif.ThmLimb Verif.ModelMul Verif.SpecMul Verif.MulFacts Verif.Wx Verif.MulFacts2.
Import ListNotations.
Open Scope Z_scope.

Lemma mul_correct : forall (c : cfg) a n b, mp_ok a -> mp_ok b -> 0 <= n <= mp_len a ->
  yields (ct_mul_trunc_mp_mp a n b) (fun a' =>
    becomes a a' ((mpval a mod 256 ^ n * mpval b) mod 256 ^ mp_len a)).
Proof. intros. apply wp_yields, wp_mul_trunc; auto. Qed.

Lemma mul_full_correct : forall (c : cfg) a n b, mp_ok a -> mp_ok b -> 0 <= n -> n + mp_len b <= mp_len a ->
  yields (ct_mul_trunc_mp_mp a n b) (fun a' => becomes a a' (mpval a mod 256 ^ n * mpval b)).
Proof.
  intros c a n b Ha Hb Hn Hl. pose proof (mp_len_nonneg b) as LBn. apply wp_yields, wp_mul_trunc; auto; [lia|]. intros a' H.
  rewrite Z.mod_small in H; auto. pose proof (mpval_bound b Hb) as MB. pose proof (Z.mod_pos_bound (mpval a) (256 ^ n) ltac:(apply Z.pow_pos_nonneg; lia)) as MA.
  split; [apply Z.mul_nonneg_nonneg; lia|]. eapply Z.lt_le_trans with (m := 256 ^ n * 256 ^ mp_len b).
  - apply Z.mul_lt_mono_nonneg; lia.
  - rewrite <- Z.pow_add_r by lia. apply Z.pow_le_mono_r; lia.
Qed.

Lemma mul_cond_correct : forall (c : cfg) a n b (z : bool), mp_ok a -> mp_ok b -> 0 <= n <= mp_len a ->
  mpval a < 256 ^ n ->
  yields (ct_mul_trunc_cond_mp_mp a n b (choice z)) (fun a' =>
    becomes a a' (if z then (mpval a * mpval b) mod 256 ^ mp_len a else mpval a)).
Proof.
  intros c a n b z Ha Hb Hn HV. apply wp_yields. pose proof (mp_len_nonneg b) as L. pose proof (mpval_bound a Ha) as MA.
  change (choice z) with (chc z).
  destruct (Z.eq_dec (mp_len b) 0) as [E|E].
  - apply wp_mul_cond_empty; auto. intros a' H. destruct z; auto. pose proof (mpval_bound b Hb) as MB. rewrite E in MB. change (256 ^ 0) with 1 in MB.
    replace (mpval b) with 0 by lia. rewrite Z.mul_0_r, Z.mod_0_l by lia. auto.
  - apply wp_mul_cond; auto; [lia|]. intros a' H. rewrite (Z.mod_small (mpval a)) in H by lia. destruct z; auto.
    rewrite Z.mul_1_r, Z.mod_small in H by lia. auto.
Qed.

Lemma mul_l_correct : forall (c : cfg) a n x, mp_ok a -> 0 <= n <= mp_len a -> 0 <= x < B ->
  yields (ct_mul_trunc_mp_l a n x) (fun a' => becomes a a' ((mpval a mod 256 ^ n * x) mod 256 ^ mp_len a)).
Proof. intros. apply wp_yields, wp_mul_mp_l; auto. Qed.

Lemma square_correct : forall (c : cfg) a n, mp_ok a -> 0 <= n <= mp_len a ->
  (let limb i := mpval a mod 256 ^ n / B ^ i mod B in
   forall i j, 0 <= i < j -> limb i * limb j / B <> B / 2 - 1 /\ limb i * limb j / B <> B / 2 - 2) ->
  yields (ct_square_trunc_mp a n) (fun a' =>
    becomes a a' ((mpval a mod 256 ^ n) ^ 2 mod 256 ^ mp_len a)).
Proof. intros c a n Ha Hn H. apply wp_yields, wp_square; auto. intros a' Q. rewrite Z.pow_2_r. auto. Qed.

Lemma square_small_correct : forall (c : cfg) a n, mp_ok a -> 0 <= n <= mp_len a -> mpval a mod 256 ^ n < B ->
  yields (ct_square_trunc_mp a n) (fun a' => becomes a a' ((mpval a mod 256 ^ n) ^ 2 mod 256 ^ mp_len a)).
Proof.
  intros c a n Ha Hn HB. apply square_correct; auto. cbv zeta. intros i j Hij. pose proof B_gt as BG.
  pose proof (Z.mod_pos_bound (mpval a) (256 ^ n) ltac:(apply Z.pow_pos_nonneg; lia)) as MA.
  assert (Z0 : mpval a mod 256 ^ n / B ^ j mod B = 0).
  { rewrite Z.div_small. - apply Z.mod_0_l; lia. - split; [lia|]. eapply Z.lt_le_trans; [apply HB|]. rewrite <- (Z.pow_1_r B) at 1. apply Z.pow_le_mono_r; lia. }
  cbv beta. rewrite Z0, Z.mul_0_r, Z.div_0_l by lia. pose proof (Z_div_mod_eq_full B 2). pose proof (Z.mod_pos_bound B 2 eq_refl). lia.
Qed.

Lemma square_fine_correct : forall (c : cfg) a n, mp_ok a -> 0 <= n <= mp_len a -> square_fine (nlimbs a) (mpval a mod 256 ^ n) ->
  yields (ct_square_trunc_mp a n) (fun a' => becomes a a' ((mpval a mod 256 ^ n) ^ 2 mod 256 ^ mp_len a)).
Proof.
  intros c a n Ha Hn F. apply wp_yields, wp_wx, wx_square; auto.
  - cbv zeta. intros j k H1 H2 _. left. exact (F j k H1 H2).
  - intros a' _ H. rewrite Z.pow_2_r. auto.
Qed.
Lemma square_debug_exact : forall (c : cfg) a n, mp_ok a -> 0 <= n <= mp_len a -> debug c = true ->
  (panics (ct_square_trunc_mp a n) <-> ~ square_fine (nlimbs a) (mpval a mod 256 ^ n)).
Proof.
  intros c a n Ha Hn D. split.
  - intros P F. destruct (square_fine_correct c a n Ha Hn F) as (r & R & _). unfold panics, returns in *. congruence.
  - intros F. apply wx_pan, wx_square; auto.
Qed.
