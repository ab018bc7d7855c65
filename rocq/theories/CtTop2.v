(** Constant time of the greatest common divisor, the inversions and the primality tests: from the relational judgement to the statements on traces. *)
From Coq Require Import ZArith List Bool Lia.
Require Import Verif.Base Verif.Spec Verif.Monad Verif.ModelLimb Verif.ModelBuf Verif.SpecBuf Verif.BufFacts Verif.LimbFacts2 Verif.BufFacts2
  Verif.ModelCmp Verif.ModelAdd Verif.ModelShift Verif.ModelMul Verif.ModelDiv Verif.ModelMont Verif.ModelEuclid Verif.ModelInv Verif.ModelPrime Verif.Wp
  Verif.SpecCt Verif.Ct Verif.CtLimb Verif.CtBuf Verif.CtArith Verif.CtDiv Verif.CtMont Verif.CtShift Verif.CtGcd Verif.CtTop.
Import ListNotations.
Open Scope Z_scope.

Lemma okg_trace : forall X (f : X -> bool) (m : M X) x, returns m x -> f x = true -> trace (okg f m) = trace m /\ returns (okg f m) x.
Proof.
  intros X f [t r] x H F. unfold returns in H. cbn [snd] in H. subst. unfold okg, bind, trace, returns. cbn. rewrite F. cbn.
  rewrite app_nil_r. auto.
Qed.
Lemma tr_all : forall X (f : X -> bool) (R : X -> X -> Prop) m m' x x', @ct obs_ret _ R (okg f m) (okg f m') ->
  returns m x -> returns m' x' -> f x = true -> f x' = true -> trace m = trace m'.
Proof.
  intros X f R m m' x x' H H1 H2 F F'. apply (okg_trace _ f) in H1, H2; auto. destruct H1 as [<- H1], H2 as [<- H2]. eapply ct_all_ret; eauto.
Qed.
Lemma tr_ops : forall X (f : X -> bool) (R : X -> X -> Prop) m m' x x', @ct obs_ops _ R (okg f m) (okg f m') ->
  returns m x -> returns m' x' -> f x = true -> f x' = true -> operations m = operations m'.
Proof.
  intros X f R m m' x x' H H1 H2 F F'. unfold operations. apply (okg_trace _ f) in H1, H2; auto. destruct H1 as [E1 H1], H2 as [E2 H2].
  rewrite <- E1, <- E2. eapply ct_ops; eauto.
Qed.
Lemma mod_twos : forall v k, 0 <= k -> (v mod 2 ^ k = 0 <-> (2 ^ k | v)).
Proof. intros v k Hk. apply Z.mod_divide. pose proof (pow2_gt0 k Hk). lia. Qed.
Lemma twos_gcd : forall v w k, (2 ^ k | Z.gcd v w) <-> (2 ^ k | v) /\ (2 ^ k | w).
Proof.
  intros v w k. split.
  - intros H. split; eapply Z.divide_trans; eauto using Z.gcd_divide_l, Z.gcd_divide_r.
  - intros [H1 H2]. apply Z.gcd_greatest; auto.
Qed.

Lemma ct_gcd : forall (c : cfg), debug c = false ->
  (forall f f' g g' x y x' y', same_shape f f' -> same_shape g g' ->
    returns (ct_gcd_odd_mp_mp f g) (Ok tt, x, y) -> returns (ct_gcd_odd_mp_mp f' g') (Ok tt, x', y') ->
    trace (ct_gcd_odd_mp_mp f g) = trace (ct_gcd_odd_mp_mp f' g')) /\
  (forall a a' b b' x y x' y', same_shape a a' -> same_shape b b' -> mp_ok a -> mp_ok a' -> mp_ok b -> mp_ok b' ->
    same_twos (Z.gcd (mpval a) (mpval b)) (Z.gcd (mpval a') (mpval b')) ->
    returns (ct_gcd_mp_mp a b) (Ok tt, x, y) -> returns (ct_gcd_mp_mp a' b') (Ok tt, x', y') ->
    trace (ct_gcd_mp_mp a b) = trace (ct_gcd_mp_mp a' b')).
Proof.
  intros c REL. split.
  - intros f f' g g' x y x' y' Hf Hg H1 H2. eapply (tr_all _ ok_3); [apply rct_gcd_odd; auto|exact H1|exact H2|reflexivity|reflexivity].
  - intros a a' b b' x y x' y' Ha Hb Oa Oa' Ob Ob' HT H1 H2. eapply (tr_all _ ok_3); [apply rct_gcd; auto|exact H1|exact H2|reflexivity|reflexivity].
    intros p p' P P'. assert (p = p') as <-; [|split; left; reflexivity].
    eapply min_twos_unique; eauto. intros k Hk. specialize (HT k Hk). rewrite !twos_gcd in HT by auto. rewrite !mod_twos by auto. exact HT.
Qed.

Lemma ct_gcd_operations : forall (c : cfg), debug c = false -> forall l l' m m' x y x' y', zlen l = zlen l' -> zlen m = zlen m' ->
  mp_ok (NE l) -> mp_ok (NE l') -> mp_ok (NE m) -> mp_ok (NE m') ->
  returns (ct_gcd_mp_mp (NE l) (NE m)) (Ok tt, x, y) -> returns (ct_gcd_mp_mp (NE l') (NE m')) (Ok tt, x', y') ->
  operations (ct_gcd_mp_mp (NE l) (NE m)) = operations (ct_gcd_mp_mp (NE l') (NE m')).
Proof.
  intros c REL l l' m m' x y x' y' Hl Hm Ol Ol' Om Om' H1 H2. eapply (tr_ops _ ok_3); [apply rct_gcd; auto; try (apply shape_ne; auto)|exact H1|exact H2|reflexivity|reflexivity].
  intros. split; right; split; reflexivity.
Qed.

Lemma ct_inverse : forall (c : cfg), debug c = false ->
  (forall r r' a a' n n' s s' t t' x y u v x' y' u' v', same_shape r r' -> same_shape a a' -> same_shape n n' -> zlen s = zlen s' -> zlen t = zlen t' ->
    returns (ct_inv_mod_odd_mp_mp r a n s t) (Ok tt, x, y, u, v) -> returns (ct_inv_mod_odd_mp_mp r' a' n' s' t') (Ok tt, x', y', u', v') ->
    trace (ct_inv_mod_odd_mp_mp r a n s t) = trace (ct_inv_mod_odd_mp_mp r' a' n' s' t')) /\
  (forall r r' a a' p p' m s s' x x', same_shape r r' -> same_shape a a' -> zlen s = zlen s' ->
    returns (ct_inv_mod_pow2_mp r a p m s) x -> returns (ct_inv_mod_pow2_mp r' a' p' m s') x' ->
    trace (ct_inv_mod_pow2_mp r a p m s) = trace (ct_inv_mod_pow2_mp r' a' p' m s')) /\
  (forall a a' n n' s0 s1 s2 s3 s0' s1' s2' s3' x y x' y', same_shape a a' -> same_shape n n' -> mp_ok n -> mp_ok n' ->
    zlen s0 = zlen s0' -> zlen s1 = zlen s1' -> zlen s2 = zlen s2' -> zlen s3 = zlen s3' -> same_twos (mpval n) (mpval n') ->
    returns (ct_inv_mod_mp_mp a n (s0, s1, s2, s3)) (Ok tt, x, y) -> returns (ct_inv_mod_mp_mp a' n' (s0', s1', s2', s3')) (Ok tt, x', y') ->
    trace (ct_inv_mod_mp_mp a n (s0, s1, s2, s3)) = trace (ct_inv_mod_mp_mp a' n' (s0', s1', s2', s3'))).
Proof.
  intros c REL. split; [|split].
  - intros r r' a a' n n' s s' t t' x y u v x' y' u' v' Hr Ha Hn Hs Ht H1 H2. 
    eapply (tr_all _ ok_5); [apply rct_inv_odd; eauto|exact H1|exact H2|reflexivity|reflexivity].
  - intros r r' a a' p p' m s s' x x' Hr Ha Hs H1 H2. eapply ct_all_ret; [apply rct_inv_pow2; auto|exact H1|exact H2].
  - intros a a' n n' s0 s1 s2 s3 s0' s1' s2' s3' x y x' y' Ha Hn On On' L0 L1 L2 L3 HT H1 H2. eapply (tr_all _ ok_3); [apply rct_inv; auto|exact H1|exact H2|reflexivity|reflexivity].
    intros p p' P P'. left. pose proof (ffs_twos _ _ p P (proj1 P)) as A1. pose proof (ffs_twos _ _ p' P' (proj1 P')) as A2.
    pose proof (ffs_twos _ _ p' P (proj1 P')) as A3. pose proof (ffs_twos _ _ p P' (proj1 P)) as A4.
    pose proof (HT p (proj1 P)) as T1. pose proof (HT p' (proj1 P')) as T2. rewrite !mod_twos in * by (apply P || apply P').
    pose proof (Z.le_refl p). pose proof (Z.le_refl p'). assert (p <= p') by tauto. assert (p' <= p) by tauto. lia.
Qed.

Lemma ct_inverse_operations : forall (c : cfg), debug c = false -> forall a a' l l' s0 s1 s2 s3 s0' s1' s2' s3' x y x' y',
  same_shape a a' -> zlen l = zlen l' -> mp_ok (NE l) -> mp_ok (NE l') -> zlen s0 = zlen s0' -> zlen s1 = zlen s1' -> zlen s2 = zlen s2' -> zlen s3 = zlen s3' ->
  returns (ct_inv_mod_mp_mp a (NE l) (s0, s1, s2, s3)) (Ok tt, x, y) -> returns (ct_inv_mod_mp_mp a' (NE l') (s0', s1', s2', s3')) (Ok tt, x', y') ->
  operations (ct_inv_mod_mp_mp a (NE l) (s0, s1, s2, s3)) = operations (ct_inv_mod_mp_mp a' (NE l') (s0', s1', s2', s3')).
Proof.
  intros c REL a a' l l' s0 s1 s2 s3 s0' s1' s2' s3' x y x' y' Ha Hl Ol Ol' L0 L1 L2 L3 H1 H2.
  eapply (tr_ops _ ok_3); [apply rct_inv; auto; try (apply shape_ne; auto)|exact H1|exact H2|reflexivity|reflexivity].
  intros. right; split; reflexivity.
Qed.

Lemma ct_prime : forall (c : cfg), debug c = false ->
  (forall p p' s s' t t' v v', same_shape p p' -> zlen s = zlen s' -> zlen t = zlen t' ->
    returns (ct_composite_test_small_prime_gcd_mp p s t) (Ok v) -> returns (ct_composite_test_small_prime_gcd_mp p' s' t') (Ok v') ->
    trace (ct_composite_test_small_prime_gcd_mp p s t) = trace (ct_composite_test_small_prime_gcd_mp p' s' t')) /\
  (forall a a' p p' m m' s s' t t' v v', same_shape a a' -> same_shape p p' -> same_shape m m' -> zlen s = zlen s' -> zlen t = zlen t' ->
    returns (ct_prime_test_miller_rabin_mp a p m s t) (Ok v) -> returns (ct_prime_test_miller_rabin_mp a' p' m' s' t') (Ok v') ->
    trace (ct_prime_test_miller_rabin_mp a p m s t) = trace (ct_prime_test_miller_rabin_mp a' p' m' s' t')).
Proof.
  intros c REL. split.
  - intros p p' s s' t t' v v' Hp Hs Ht H1 H2. eapply (tr_all _ ok_1); [apply rct_screen; auto|exact H1|exact H2|reflexivity|reflexivity].
  - intros a a' p p' m m' s s' t t' v v' Ha Hp Hm Hs Ht H1 H2. eapply (tr_all _ ok_1); [apply rct_mr; auto|exact H1|exact H2|reflexivity|reflexivity].
Qed.

