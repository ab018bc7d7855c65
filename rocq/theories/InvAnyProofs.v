(** Proofs of the properties of inversion modulo arbitrary numbers (invmod_impl.rs, ModelInv.v). *)
From Coq Require Import ZArith List Bool Lia Znumtheory.
Require Import Verif.Spec Verif.Base Verif.Monad Verif.Wp Verif.ModelLimb Verif.LimbFacts Verif.LimbProofs
  Verif.ModelBuf Verif.SpecBuf Verif.BufFacts Verif.BufFacts2 Verif.BufFacts3 Verif.BufProofs Verif.ModelCmp Verif.CmpFacts
  Verif.ModelMont Verif.SpecMont Verif.MontFacts5 Verif.MontFacts6
  Verif.SpecEuclid Verif.SpecSteps Verif.ModelEuclid Verif.EuclidFacts4 Verif.GcdBound Verif.InvOddFacts4 Verif.SpecInv Verif.ModelInv Verif.InvFacts Verif.InvAnyFacts.
Import ListNotations.
Open Scope Z_scope.

Section S.
Context {c : cfg}.

Lemma inv_any_fits : forall op0 n s0 s1 s2 s3 m e, mp_ok op0 -> mp_ok n -> mut_compat op0 n ->
  scratch_ok n s0 -> scratch_ok n s1 -> scratch_ok n s2 -> scratch_ok n s3 -> gcd_len_ok (LB * nlimbs n) ->
  mpval n = m * 2 ^ e -> Z.odd m = true -> 0 <= e -> residues_fit m (nlimbs n - 1) (mpval op0) ->
  liftable (mpval op0) (8 * mp_len n - 1) -> liftable m (8 * mp_len n - 1) ->
  1 < mpval n -> Z.gcd (mpval n) (mpval op0) = 1 ->
  yields (ct_inv_mod_mp_mp op0 n (s0, s1, s2, s3)) (fun '(res, op0', n') =>
    res = Ok tt /\ is_inverse (mpval n) (mpval op0) (mpval op0') /\ becomes op0 op0' (mpval op0') /\ becomes n n' (mpval n)).
Proof.
  intros op0 n s0 s1 s2 s3 m e Oo On CO S0 S1 S2 S3 HU EN HO He GM L1 L2 HN HC.
  assert (HP : Z.odd (mpval n) = true \/ Z.odd (mpval op0) = true).
  { destruct (Z.odd (mpval n)) eqn:A; [auto|]. destruct (Z.odd (mpval op0)) eqn:A2; [auto|]. exfalso.
    rewrite <- Z.negb_even, negb_false_iff, Z.even_spec in A, A2. destruct A as [u A]. destruct A2 as [v A2].
    assert (D : (2 | Z.gcd (mpval n) (mpval op0))) by (apply Z.gcd_greatest; [exists u|exists v]; lia). rewrite HC in D. destruct D; lia. }
  apply wp_yields. eapply wp_inv_any; eauto; [lia|].
  intros res o' n' Oo' So' Bn' _ HI. destruct HI as [-> HI]; auto. split; [auto|]. split; [auto|]. split; [split; auto|auto].
Qed.

Lemma inv_any_correct : forall op0 n s0 s1 s2 s3 m e, mp_ok op0 -> mp_ok n -> mut_compat op0 n ->
  scratch_ok n s0 -> scratch_ok n s1 -> scratch_ok n s2 -> scratch_ok n s3 -> gcd_len_ok (LB * nlimbs n) ->
  mpval n = m * 2 ^ e -> Z.odd m = true -> 0 <= e -> m <= B ^ (nlimbs n - 1) ->
  liftable (mpval op0) (8 * mp_len n - 1) -> liftable m (8 * mp_len n - 1) ->
  1 < mpval n -> Z.gcd (mpval n) (mpval op0) = 1 ->
  yields (ct_inv_mod_mp_mp op0 n (s0, s1, s2, s3)) (fun '(res, op0', n') =>
    res = Ok tt /\ is_inverse (mpval n) (mpval op0) (mpval op0') /\ becomes op0 op0' (mpval op0') /\ becomes n n' (mpval n)).
Proof.
  intros op0 n s0 s1 s2 s3 m e Oo On CO S0 S1 S2 S3 HU EN HO He GM L1 L2 HN HC. eapply inv_any_fits; eauto. pose proof (mpval_bound_B n On) as BN. pose proof (nlimbs_nonneg n).
  assert (nlimbs n <> 0) by (intros E; rewrite E, Z.pow_0_r in BN; lia). apply spare_fit; [lia|]. split; [|auto].
  pf (pow2_gt0 e). apply (mul_lt_cancel (2 ^ e)); lia.
Qed.

(** Moduli of at most two limbs need no condition on the lifting. *)
Lemma inv_any_two_limbs_fits : forall op0 n s0 s1 s2 s3 m e, mp_ok op0 -> mp_ok n -> mut_compat op0 n ->
  scratch_ok n s0 -> scratch_ok n s1 -> scratch_ok n s2 -> scratch_ok n s3 -> nlimbs n <= 2 ->
  mpval n = m * 2 ^ e -> Z.odd m = true -> 0 <= e -> residues_fit m (nlimbs n - 1) (mpval op0) ->
  1 < mpval n -> Z.gcd (mpval n) (mpval op0) = 1 ->
  yields (ct_inv_mod_mp_mp op0 n (s0, s1, s2, s3)) (fun '(res, op0', n') =>
    res = Ok tt /\ is_inverse (mpval n) (mpval op0) (mpval op0') /\ becomes op0 op0' (mpval op0') /\ becomes n n' (mpval n)).
Proof.
  intros op0 n s0 s1 s2 s3 m e Oo On CO S0 S1 S2 S3 HN2 EN HO He GM HN HC.
  pose proof LB_pos as HLB. pose proof (nlimbs_spec n) as NS. assert (WL : W = 8 * LB) by (apply W_eq).
  assert (8 * mp_len n - 1 <= 2 * W). { pf (mul_le_l LB (nlimbs n) 2). lia. }
  apply (inv_any_fits op0 n s0 s1 s2 s3 m e); auto using liftable_small.
  unfold gcd_len_ok. pf (mul_le_l LB (nlimbs n) 2). pose proof UW_gt. destruct W_cases; lia.
Qed.

Lemma inv_any_two_limbs : forall op0 n s0 s1 s2 s3 m e, mp_ok op0 -> mp_ok n -> mut_compat op0 n ->
  scratch_ok n s0 -> scratch_ok n s1 -> scratch_ok n s2 -> scratch_ok n s3 -> nlimbs n <= 2 ->
  mpval n = m * 2 ^ e -> Z.odd m = true -> 0 <= e -> m <= B ^ (nlimbs n - 1) ->
  1 < mpval n -> Z.gcd (mpval n) (mpval op0) = 1 ->
  yields (ct_inv_mod_mp_mp op0 n (s0, s1, s2, s3)) (fun '(res, op0', n') =>
    res = Ok tt /\ is_inverse (mpval n) (mpval op0) (mpval op0') /\ becomes op0 op0' (mpval op0') /\ becomes n n' (mpval n)).
Proof.
  intros op0 n s0 s1 s2 s3 m e Oo On CO S0 S1 S2 S3 HN2 EN HO He GM HN HC. eapply inv_any_two_limbs_fits; eauto. pose proof (mpval_bound_B n On) as BN. pose proof (nlimbs_nonneg n).
  assert (nlimbs n <> 0) by (intros E; rewrite E, Z.pow_0_r in BN; lia). apply spare_fit; [lia|]. split; [|auto].
  pf (pow2_gt0 e). apply (mul_lt_cancel (2 ^ e)); lia.
Qed.

Lemma inv_any_not_coprime : forall op0 n s0 s1 s2 s3, mp_ok op0 -> mp_ok n -> mut_compat op0 n ->
  scratch_ok n s0 -> scratch_ok n s1 -> scratch_ok n s2 -> scratch_ok n s3 -> gcd_len_ok (LB * nlimbs n) ->
  liftable (mpval op0) (8 * mp_len n - 1) ->
  0 < mpval n -> Z.odd (mpval n) = true \/ Z.odd (mpval op0) = true -> Z.gcd (mpval n) (mpval op0) <> 1 ->
  yields (ct_inv_mod_mp_mp op0 n (s0, s1, s2, s3)) (fun '(res, op0', n') =>
    res = Err ImOperandsNotCoprime /\ becomes op0 op0' 0 /\ becomes n n' (mpval n)).
Proof.
  intros op0 n s0 s1 s2 s3 Oo On CO S0 S1 S2 S3 HU L1 HN HP HC.
  assert (EX : exists m e, mpval n = m * 2 ^ e /\ Z.odd m = true /\ 0 <= e).
  { destruct (odd_part (mpval n)) as (e & m & E & O); [lia|]. exists m, (Z.of_nat e). split; [lia|]. split; [auto|lia]. }
  destruct EX as (m & e & EN & HO & He). apply wp_yields. eapply wp_inv_any; eauto; [intros; contradiction|].
  intros res o' n' Oo' So' Bn' H0 _. destruct H0 as [-> V]; auto. split; [auto|]. split; [split; auto|auto].
Qed.

Lemma hensel_1 : forall k, hensel 1 k = 1.
Proof.
  induction k as [|k IH]; [reflexivity|]. cbn [hensel]. rewrite IH. apply Z.mod_small. split; [lia|].
  assert (1 <= 2 ^ Z.of_nat (S k)) by (pf (pow2_gt0 (Z.of_nat (S k))); lia). assert (2 ^ 1 <= 2 ^ 2 ^ Z.of_nat (S k)) by (apply Z.pow_le_mono_r; lia). lia.
Qed.
Lemma liftable_1 : forall e, liftable 1 e.
Proof. intros e k _. rewrite hensel_1. apply SqExact.small_ok. pose proof B_gt. split; [lia|]. assert (B ^ 1 <= B ^ 2) by (apply Z.pow_le_mono_r; lia). rewrite Z.pow_1_r in *. lia. Qed.

Lemma inv_any_one : forall op0 n s0 s1 s2 s3, mp_ok op0 -> mp_ok n -> mut_compat op0 n ->
  scratch_ok n s0 -> scratch_ok n s1 -> scratch_ok n s2 -> scratch_ok n s3 -> gcd_len_ok (LB * nlimbs n) ->
  liftable (mpval op0) (8 * mp_len n - 1) -> mpval n = 1 ->
  yields (ct_inv_mod_mp_mp op0 n (s0, s1, s2, s3)) (fun '(res, op0', n') =>
    res = Err ImOperandsNotCoprime /\ becomes op0 op0' 0 /\ becomes n n' 1).
Proof.
  intros op0 n s0 s1 s2 s3 Oo On CO S0 S1 S2 S3 HU L1 HN. pose proof (liftable_1 (8 * mp_len n - 1)) as L2. apply wp_yields. apply (wp_inv_any op0 n s0 s1 s2 s3 1 0); auto; try lia.
  - left. rewrite HN. auto.
  - intros _. split; [|auto]. pose proof (mpval_bound_B n On) as BN. rewrite HN in BN. pose proof (nlimbs_nonneg n).
    assert (nlimbs n <> 0) by (intros E; rewrite E, Z.pow_0_r in BN; lia). pf (Bpow_pos (nlimbs n - 1)). apply spare_fit; lia.
  - rewrite HN. intros res o' n' Oo' So' Bn' H0 _. destruct H0 as [-> V]; auto. split; [auto|]. split; [split; auto|auto].
Qed.

Lemma inv_any_errors : forall op0 n s0 s1 s2 s3, mp_ok op0 -> mp_ok n ->
  (mp_len n = 0 -> returns (ct_inv_mod_mp_mp op0 n (s0, s1, s2, s3)) (Err ImInvalidModulus, op0, n)) /\
  (0 < mp_len n -> ~ len_compat n (mp_len op0) -> returns (ct_inv_mod_mp_mp op0 n (s0, s1, s2, s3)) (Err ImInsufficientResultSpace, op0, n)) /\
  (0 < mp_len n -> len_compat n (mp_len op0) -> ~ len_compat op0 (mp_len n) ->
     returns (ct_inv_mod_mp_mp op0 n (s0, s1, s2, s3)) (Err ImInconsistentOperandLengths, op0, n)) /\
  (0 < mp_len n -> mut_compat op0 n -> Z.odd (mpval n) = false -> Z.odd (mpval op0) = false ->
     returns (ct_inv_mod_mp_mp op0 n (s0, s1, s2, s3)) (Err ImOperandsNotCoprime, op0, n)) /\
  (0 < mp_len n -> mut_compat op0 n -> Z.odd (mpval n) = true \/ Z.odd (mpval op0) = true ->
     zlen s0 < nlimbs n \/ zlen s1 < nlimbs n \/ zlen s2 < nlimbs n \/ zlen s3 < nlimbs n ->
     returns (ct_inv_mod_mp_mp op0 n (s0, s1, s2, s3)) (Err ImInsufficientScratchSpace, op0, n)) /\
  (0 < mp_len n -> mut_compat op0 n -> Z.odd (mpval op0) = true -> mpval n = 0 ->
     scratch_ok n s0 -> scratch_ok n s1 -> scratch_ok n s2 -> scratch_ok n s3 ->
     returns (ct_inv_mod_mp_mp op0 n (s0, s1, s2, s3)) (Err ImInvalidModulus, op0, n)).
Proof.
  intros op0 n s0 s1 s2 s3 Oo On. pose proof (mp_len_nonneg n) as Ln. pose proof (mp_len_nonneg op0) as Lo.
  assert (NP : 0 < mp_len n -> 0 < nlimbs n). { intros H. pose proof (nlimbs_spec n). pose proof LB_pos. pose proof (nlimbs_nonneg n). destruct (Z.eq_dec (nlimbs n) 0) as [E|]; [rewrite E in *; lia|lia]. }
  assert (EM : 0 < mp_len n -> mp_is_empty n = true -> False). { intros H E. rewrite not_empty in E by auto. discriminate. }
  unfold ct_inv_mod_mp_mp. split; [|split; [|split; [|split; [|split]]]].
  - intros L0. apply wp_ret_eq. apply wp_mif; intros E; [apply wp_ret; auto|]. exfalso. rewrite empty_nlimbs in E. apply Z.eqb_neq in E. apply E.
    pose proof (nlimbs_spec n) as NS. pose proof LB_pos. destruct (Z.eq_dec (nlimbs n) 0); [auto|]. pf (mul_le_l LB 1 (nlimbs n)). lia.
  - intros L0 C. apply wp_ret_eq. apply wp_mif; intros E; [exfalso; auto|]. apply wp_bind, wp_compat_not; auto. apply wp_mif; intros E2; [apply wp_ret; auto|discriminate].
  - intros L0 C C2. apply wp_ret_eq. apply wp_mif; intros E; [exfalso; auto|]. apply wp_bind, wp_compat; auto. apply wp_mif; intros E2; [discriminate|].
    apply wp_bind, wp_compat_not; auto. apply wp_mif; intros E3; [apply wp_ret; auto|discriminate].
  - intros L0 C H0 H1. destruct (mut_nlimbs op0 n Oo On C) as (NN & _). destruct C as [C C2]. apply wp_ret_eq. apply wp_mif; intros E; [exfalso; auto|].
    apply wp_bind, wp_compat; auto. apply wp_mif; intros E2; [discriminate|]. apply wp_bind, wp_compat; auto. apply wp_mif; intros E3; [discriminate|].
    apply wp_both_even; auto; [pf (NP L0); lia|intros; apply wp_ret; auto|]. intros [X|X]; congruence.
  - intros L0 C HP HS. destruct (mut_nlimbs op0 n Oo On C) as (NN & _). destruct C as [C C2]. apply wp_ret_eq. apply wp_mif; intros E; [exfalso; auto|].
    apply wp_bind, wp_compat; auto. apply wp_mif; intros E2; [discriminate|]. apply wp_bind, wp_compat; auto. apply wp_mif; intros E3; [discriminate|].
    apply wp_both_even; auto; [pf (NP L0); lia|intros A1 A2; destruct HP; congruence|]. intros _. fold (nlimbs n).
    apply wp_mif; intros X0; [apply wp_ret; auto|]. apply wp_mif; intros X1; [apply wp_ret; auto|]. apply wp_mif; intros X2; [apply wp_ret; auto|].
    apply wp_mif; intros X3; [apply wp_ret; auto|]. apply Z.ltb_ge in X0, X1, X2, X3. lia.
  - intros L0 C HO NZ [OS0 L1] [OS1 L2] [OS2 L3] [OS3 L4]. destruct (mut_nlimbs op0 n Oo On C) as (NN & _). destruct C as [C C2]. apply wp_ret_eq. apply wp_mif; intros E; [exfalso; auto|].
    apply wp_bind, wp_compat; auto. apply wp_mif; intros E2; [discriminate|]. apply wp_bind, wp_compat; auto. apply wp_mif; intros E3; [discriminate|].
    apply wp_both_even; auto; [pf (NP L0); lia|intros A1 A2; congruence|]. intros _. fold (nlimbs n).
    apply wp_mif; intros X0; [apply Z.ltb_lt in X0; lia|]. apply wp_mif; intros X1; [apply Z.ltb_lt in X1; lia|]. apply wp_mif; intros X2; [apply Z.ltb_lt in X2; lia|].
    apply wp_mif; intros X3; [apply Z.ltb_lt in X3; lia|].
    apply (wp_view _ (NE s0) n); auto; [apply scratch_compat; auto|]. intros. apply (wp_view _ (NE s1) n); auto; [apply scratch_compat; auto|]. intros.
    apply wp_bind, wp_find_first_set_bit; auto; [|intros; contradiction]. intros _. rewrite lc_unwrap_chc. apply wp_mif; intros X4; [apply wp_ret; auto|discriminate].
Qed.
End S.
