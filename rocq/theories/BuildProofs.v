(** Different builds and different encodings: consequences of the functional theorems. *)
From Coq Require Import ZArith List Bool Lia.
Require Import Verif.Spec Verif.Monad Verif.ModelLimb Verif.ModelBuf Verif.SpecBuf Verif.BufFacts
  Verif.ModelCmp Verif.ModelAdd Verif.ModelShift Verif.ModelMul Verif.ModelDiv Verif.SpecDiv Verif.ModelMont Verif.SpecMont
  Verif.ModelEuclid Verif.SpecEuclid Verif.ModelLcm Verif.InvFacts Verif.MontProofs Verif.LimbProofs Verif.InvOddFacts4
  Verif.ThmLimb Verif.ThmAdd Verif.ThmShift Verif.ThmMul Verif.ThmDiv Verif.ThmDiv2 Verif.ThmMont Verif.ThmGcd Verif.ThmLcm Verif.ThmInvOdd Verif.ThmBuf Verif.ThmPrime
  Verif.ModelPrime Verif.SpecPrime Verif.SpecBuild.
Import ListNotations.
Open Scope Z_scope.

Lemma target_eq : forall c1 c2, same_target c1 c2 -> c2 = mkcfg (limb64 c1) (asm_math c2) (usize64 c1) (debug c2).
Proof. intros [l1 a1 u1 d1] [l2 a2 u2 d2] [H1 H2]. cbn in *. subst. reflexivity. Qed.
Lemma same_of : forall A (m1 m2 : M A) P Q, yields m1 P -> yields m2 Q -> (forall x y, P x -> Q y -> x = y) -> same_result m1 m2.
Proof. intros A m1 m2 P Q (x & X1 & X2) (y & Y1 & Y2) H. rewrite <- (H x y X2 Y2) in Y1. exists x. auto. Qed.
Lemma both_of : forall A (m1 m2 : M A) P Q (R : A -> A -> Prop), yields m1 P -> yields m2 Q -> (forall x y, P x -> Q y -> R x y) -> both m1 m2 R.
Proof. intros A m1 m2 P Q R (x & X1 & X2) (y & Y1 & Y2) H. exists x, y. auto. Qed.
Lemma bec_eq : forall (c : cfg) a x y v, becomes a x v -> becomes a y v -> x = y.
Proof.
  intros c a x y v (X1 & [X2 X3] & X4) (Y1 & [Y2 Y3] & Y4). apply mp_inj; auto; [split; congruence|congruence].
Qed.
Lemma q_eq : forall (c : cfg) q x y v, o_same q x -> q_is x v -> o_same q y -> q_is y v -> x = y.
Proof.
  intros c [q|] [x|] [y|] v; cbn; try tauto. intros [X1 X2] X3 [Y1 Y2] Y3. f_equal. apply (bec_eq c q x y v); split; auto.
Qed.
Lemma split_eq : forall (c : cfg) x y x' y', mp_ok x -> mp_ok x' -> mp_len x = mp_len x' -> mpval x + 256 ^ mp_len x * y = mpval x' + 256 ^ mp_len x' * y' ->
  mpval x = mpval x' /\ y = y'.
Proof.
  intros c x y x' y' H H' L E. pose proof (mpval_bound x H). pose proof (mpval_bound x' H'). pose proof (mpval_nonneg x H). pose proof (mpval_nonneg x' H').
  rewrite <- L in *. destruct (Base.digit_unique (256 ^ mp_len x) (mpval x) y (mpval x') y'); lia.
Qed.
Lemma u_eq : forall (c : cfg) uh ul x y x' y' v, u_ok x y -> same_shape ul y -> o_same uh x -> uval x y = v ->
  u_ok x' y' -> same_shape ul y' -> o_same uh x' -> uval x' y' = v -> x = x' /\ y = y'.
Proof.
  intros c uh ul x y x' y' v [A1 _] A2 A3 A4 [B1 _] B2 B3 B4. rewrite <- B4 in A4. unfold uval in A4.
  assert (L : mp_len y = mp_len y') by (destruct A2, B2; congruence).
  destruct (split_eq c y (uhval x) y' (uhval x') A1 B1 L A4) as [E1 E2]. split.
  - apply (q_eq c uh x x' (uhval x)); auto; [destruct x; reflexivity|rewrite E2; destruct x'; reflexivity].
  - apply mp_inj; auto. destruct A2, B2. split; congruence.
Qed.
Lemma neg_inv_eq : forall (c : cfg) n v w, Z.odd (mpval n) = true -> neg_inv n v -> neg_inv n w -> v = w.
Proof.
  intros c n v w HO [Hv Ev] [Hw Ew]. rewrite <- (Z.mod_small v B Hv), <- (Z.mod_small w B Hw).
  assert (HB : 0 < B) by lia.
  apply Z.mod_divide in Ev; [|lia]. apply Z.mod_divide in Ew; [|lia].
  apply MontFacts6.div_mod_eq; [lia|].
  apply Znumtheory.Gauss with (b := mpval n).
  - replace (mpval n * (v - w)) with ((mpval n * v + 1) - (mpval n * w + 1)) by ring. apply Z.divide_sub_r; auto.
  - apply Znumtheory.rel_prime_sym. replace B with (2 ^ W) by reflexivity. apply odd_pow2_coprime; auto. unfold W, LB. destruct (limb64 c); lia.
Qed.
Lemma bec_re : forall c1 c2 a1 a2 x y v, @becomes c1 a1 x v -> @becomes c2 a2 y v -> @mp_len c1 a1 = @mp_len c2 a2 -> reencoded c1 x c2 y.
Proof.
  intros c1 c2 a1 a2 x y v (X1 & [X2 X3] & X4) (Y1 & [Y2 Y3] & Y4) L. split; [split; [auto|split; [auto|congruence]]|congruence].
Qed.
Lemma nlimbs_le : forall (c : cfg) a b, mp_len b <= mp_len a -> nlimbs b <= nlimbs a.
Proof. intros c a b H. unfold nlimbs, ct_mp_nlimbs. apply Z.div_le_mono; [unfold LB; destruct (limb64 c); lia|lia]. Qed.
Lemma val_fits : forall (c : cfg) a b, mp_ok b -> mp_len b <= mp_len a -> mpval b < 256 ^ mp_len a.
Proof.
  intros c a b H L. pose proof (mpval_bound b H). pose proof (mp_len_nonneg b). pose proof (Z.pow_le_mono_r 256 (mp_len b) (mp_len a)). lia.
Qed.
Lemma u_re : forall c1 c2 u1 u2 x y x' y' v, @u_ok c1 x y -> @same_shape c1 u1 y -> @o_same c1 None x -> @uval c1 x y = v ->
  @u_ok c2 x' y' -> @same_shape c2 u2 y' -> @o_same c2 None x' -> @uval c2 x' y' = v -> @mp_len c1 u1 = @mp_len c2 u2 -> reencoded c1 y c2 y'.
Proof.
  intros c1 c2 u1 u2 x y x' y' v [A1 _] [_ A2] A3 A4 [B1 _] [_ B2] B3 B4 L. destruct x, x'; try (cbn in A3, B3; tauto).
  unfold uval, uhval in *. split; [split; [auto|split; [auto|lia]]|congruence].
Qed.
Lemma q_re : forall c1 c2 q1 q2 z z' v, @o_same c1 q1 z -> @q_is c1 z v -> @o_same c2 q2 z' -> @q_is c2 z' v -> reencoded_opt c1 q1 c2 q2 -> reencoded_opt c1 z c2 z'.
Proof.
  intros c1 c2 [q1|] [q2|] [z|] [z'|] v; cbn; try tauto. intros [X1 X2] X3 [Y1 Y2] Y3 [_ L].
  apply (bec_re c1 c2 q1 q2 z z' v); auto; split; auto.
Qed.

Lemma b44_buffer : forall (c1 c2 : cfg), same_target c1 c2 ->
  (forall b i, @mp_ok c1 b -> 0 <= i -> i * @LB c1 < @mp_len c1 b -> same_result (@load_l c1 b i) (@load_l c2 b i)) /\
  (forall b i v, @mp_ok c1 b -> 0 <= i -> i * @LB c1 < @mp_len c1 b -> 0 <= v < @B c1 -> v < 256 ^ (@mp_len c1 b - i * @LB c1) ->
    same_result (@store_l c1 b i v) (@store_l c2 b i v)) /\
  (forall b n, @mp_ok c1 b -> 0 <= n <= @mp_len c1 b -> same_result (@clear_bytes_above c1 b n) (@clear_bytes_above c2 b n) /\ same_result (@clear_bytes_below c1 b n) (@clear_bytes_below c2 b n)) /\
  (forall b n, @mp_ok c1 b -> 0 <= n < 2 ^ @UW c1 -> same_result (@ct_clear_bits_above_mp c1 b n) (@ct_clear_bits_above_mp c2 b n) /\ same_result (@ct_clear_bits_below_mp c1 b n) (@ct_clear_bits_below_mp c2 b n)) /\
  (forall dst src, @mp_ok c1 dst -> @mp_ok c1 src -> @mpval c1 src < 256 ^ @mp_len c1 dst -> same_result (@copy_from c1 dst src) (@copy_from c2 dst src)) /\
  (forall b i, @mp_ok c1 b -> 0 <= i -> same_result (@test_bit c1 b i) (@test_bit c2 b i)) /\
  (forall a b z, @mp_ok c1 a -> @mp_ok c1 b -> @mp_len c1 a = @mp_len c1 b -> same_result (@ct_swap_cond_mp c1 a b (@choice c1 z)) (@ct_swap_cond_mp c2 a b (@choice c2 z))).
Proof.
  intros c1 c2 T. rewrite (target_eq c1 c2 T). clear T. set (c3 := mkcfg _ _ _ _). repeat apply conj; intros.
  - eexists. split; [exact (proj1 (C01_load c1 b i H H0 H1))|exact (proj1 (C01_load c3 b i H H0 H1))].
  - apply (same_of _ _ _ _ _ (proj1 (C01_store c1 b i v H H0 H1 H2 H3)) (proj1 (C01_store c3 b i v H H0 H1 H2 H3))). intros x y. apply (bec_eq c1).
  - destruct H0 as [N1 N2]. destruct (C02_clear_bytes c1 b n H N1) as [X1 X2]. destruct (C02_clear_bytes c3 b n H N1) as [Y1 Y2]. split.
    + apply (same_of _ _ _ _ _ X1 Y1). intros x y. apply (bec_eq c1).
    + apply (same_of _ _ _ _ _ (X2 N2) (Y2 N2)). intros x y. apply (bec_eq c1).
  - destruct (C03_clear_bits c1 b n H H0) as (X1 & _ & X2 & _). destruct (C03_clear_bits c3 b n H H0) as (Y1 & _ & Y2 & _). split.
    + apply (same_of _ _ _ _ _ X1 Y1). intros x y. apply (bec_eq c1).
    + apply (same_of _ _ _ _ _ X2 Y2). intros x y. apply (bec_eq c1).
  - apply (same_of _ _ _ _ _ (C04_copy_from c1 dst src H H0 H1) (C04_copy_from c3 dst src H H0 H1)). intros x y. apply (bec_eq c1).
  - eexists. split; [exact (C06_test_bit c1 b i H H0)|exact (C06_test_bit c3 b i H H0)].
  - apply (same_of _ _ _ _ _ (C08_swap_cond c1 a b z H H0 H1) (C08_swap_cond c3 a b z H H0 H1)).
    intros [x u] [y v] [X1 X2] [Y1 Y2]. rewrite (bec_eq c1 _ _ _ _ X1 Y1), (bec_eq c1 _ _ _ _ X2 Y2). reflexivity.
Qed.

Lemma b44_compare : forall (c1 c2 : cfg), same_target c1 c2 ->
  (forall a b, @mp_ok c1 a -> @mp_ok c1 b ->
    same_result (@ct_eq_mp_mp c1 a b) (@ct_eq_mp_mp c2 a b) /\
    same_result (@ct_neq_mp_mp c1 a b) (@ct_neq_mp_mp c2 a b) /\
    same_result (@ct_lt_mp_mp c1 a b) (@ct_lt_mp_mp c2 a b) /\
    same_result (@ct_leq_mp_mp c1 a b) (@ct_leq_mp_mp c2 a b) /\
    same_result (@ct_gt_mp_mp c1 a b) (@ct_gt_mp_mp c2 a b) /\
    same_result (@ct_geq_mp_mp c1 a b) (@ct_geq_mp_mp c2 a b)) /\
  (forall a, @mp_ok c1 a -> same_result (@ct_is_zero_mp c1 a) (@ct_is_zero_mp c2 a) /\ same_result (@ct_is_one_mp c1 a) (@ct_is_one_mp c2 a)) /\
  (forall a l, @mp_ok c1 a -> 0 <= l < @B c1 -> same_result (@ct_leq_mp_l c1 a l) (@ct_leq_mp_l c2 a l)).
Proof.
  intros c1 c2 T. rewrite (target_eq c1 c2 T). clear T. set (c3 := mkcfg _ _ _ _). split; [|split].
  - intros a b Ha Hb. destruct (C16_compare c1 a b Ha Hb) as (A1 & A2 & A3 & A4 & A5 & A6). destruct (C16_compare c3 a b Ha Hb) as (B1 & B2 & B3 & B4 & B5 & B6).
    repeat apply conj; eexists; split; eassumption.
  - intros a Ha. destruct (C16_compare_small c1 a Ha) as (A1 & A2 & A3). destruct (C16_compare_small c3 a Ha) as (B1 & B2 & B3).
    split; eexists; split; eassumption.
  - intros a l Ha Hl. destruct (C16_compare_small c1 a Ha) as (A1 & A2 & A3). destruct (C16_compare_small c3 a Ha) as (B1 & B2 & B3).
    eexists. split; [apply A3; exact Hl|apply B3; exact Hl].
Qed.

Lemma b44_add_sub : forall (c1 c2 : cfg), same_target c1 c2 ->
  (forall a b, @mp_ok c1 a -> @mp_ok c1 b -> @nlimbs c1 b <= @nlimbs c1 a -> @mpval c1 b < 256 ^ @mp_len c1 a ->
    same_result (@ct_add_mp_mp c1 a b) (@ct_add_mp_mp c2 a b)) /\
  (forall a b, @mp_ok c1 a -> @mp_ok c1 b -> @nlimbs c1 b <= @nlimbs c1 a -> @mpval c1 b < 256 ^ @mp_len c1 a ->
    same_result (@ct_sub_mp_mp c1 a b) (@ct_sub_mp_mp c2 a b)) /\
  (forall a b z, @mp_ok c1 a -> @mp_ok c1 b -> @nlimbs c1 b <= @nlimbs c1 a -> (z = true -> @mpval c1 b < 256 ^ @mp_len c1 a) ->
    same_result (@ct_add_cond_mp_mp c1 a b (@choice c1 z)) (@ct_add_cond_mp_mp c2 a b (@choice c2 z))) /\
  (forall a b z, @mp_ok c1 a -> @mp_ok c1 b -> @nlimbs c1 b <= @nlimbs c1 a -> (z = true -> @mpval c1 b < 256 ^ @mp_len c1 a) ->
    same_result (@ct_sub_cond_mp_mp c1 a b (@choice c1 z)) (@ct_sub_cond_mp_mp c2 a b (@choice c2 z))) /\
  (forall a x, @mp_ok c1 a -> 0 <= x < @B c1 -> x < 256 ^ @mp_len c1 a -> same_result (@ct_add_mp_l c1 a x) (@ct_add_mp_l c2 a x)) /\
  (forall a x, @mp_ok c1 a -> 0 <= x < @B c1 -> x < 256 ^ @mp_len c1 a -> same_result (@ct_sub_mp_l c1 a x) (@ct_sub_mp_l c2 a x)) /\
  (forall a, @mp_ok c1 a -> same_result (@ct_negate_mp c1 a) (@ct_negate_mp c2 a)) /\
  (forall a z, @mp_ok c1 a -> same_result (@ct_negate_cond_mp c1 a (@choice c1 z)) (@ct_negate_cond_mp c2 a (@choice c2 z))).
Proof.
  intros c1 c2 T. rewrite (target_eq c1 c2 T). clear T. set (c3 := mkcfg _ _ _ _). repeat apply conj; intros.
  - apply (same_of _ _ _ _ _ (C17_add c1 a b H H0 H1 H2) (C17_add c3 a b H H0 H1 H2)). intros [x k] [y l] [X1 X2] [Y1 Y2]. f_equal; [exact (bec_eq c1 _ _ _ _ X1 Y1)|rewrite X2, Y2; reflexivity].
  - apply (same_of _ _ _ _ _ (C18_sub c1 a b H H0 H1 H2) (C18_sub c3 a b H H0 H1 H2)). intros [x k] [y l] [X1 X2] [Y1 Y2]. f_equal; [exact (bec_eq c1 _ _ _ _ X1 Y1)|rewrite X2, Y2; reflexivity].
  - apply (same_of _ _ _ _ _ (C17_add_cond c1 a b z H H0 H1 H2) (C17_add_cond c3 a b z H H0 H1 H2)). intros [x k] [y l] [X1 X2] [Y1 Y2]. f_equal; [exact (bec_eq c1 _ _ _ _ X1 Y1)|rewrite X2, Y2; reflexivity].
  - apply (same_of _ _ _ _ _ (C18_sub_cond c1 a b z H H0 H1 H2) (C18_sub_cond c3 a b z H H0 H1 H2)). intros [x k] [y l] [X1 X2] [Y1 Y2]. f_equal; [exact (bec_eq c1 _ _ _ _ X1 Y1)|rewrite X2, Y2; reflexivity].
  - apply (same_of _ _ _ _ _ (C17_add_limb c1 a x H H0 H1) (C17_add_limb c3 a x H H0 H1)). intros [u k] [v l] [X1 X2] [Y1 Y2]. f_equal; [exact (bec_eq c1 _ _ _ _ X1 Y1)|rewrite X2, Y2; reflexivity].
  - apply (same_of _ _ _ _ _ (C18_sub_limb c1 a x H H0 H1) (C18_sub_limb c3 a x H H0 H1)). intros [u k] [v l] [X1 X2] [Y1 Y2]. f_equal; [exact (bec_eq c1 _ _ _ _ X1 Y1)|rewrite X2, Y2; reflexivity].
  - apply (same_of _ _ _ _ _ (proj1 (C18_negate c1 a H)) (proj1 (C18_negate c3 a H))). intros x y. apply (bec_eq c1).
  - apply (same_of _ _ _ _ _ (proj2 (C18_negate c1 a H) z) (proj2 (C18_negate c3 a H) z)). intros x y. apply (bec_eq c1).
Qed.

Lemma b44_mod_arith : forall (c1 c2 : cfg), same_target c1 c2 ->
  (forall a b n, @mp_ok c1 a -> @mp_ok c1 b -> @mp_ok c1 n -> @mpval c1 a < @mpval c1 n -> @mpval c1 b < @mpval c1 n ->
    @mp_len c1 n <= @mp_len c1 a -> @nlimbs c1 a = @nlimbs c1 n \/ @mpval c1 a + @mpval c1 b < @B c1 ^ @nlimbs c1 n ->
    same_result (@ct_add_mod_mp_mp c1 a b n) (@ct_add_mod_mp_mp c2 a b n)) /\
  (forall a b n, @mp_ok c1 a -> @mp_ok c1 b -> @mp_ok c1 n -> @mpval c1 a < @mpval c1 n -> @mpval c1 b < @mpval c1 n ->
    @mp_len c1 n <= @mp_len c1 a -> @nlimbs c1 a = @nlimbs c1 n \/ @mpval c1 b <= @mpval c1 a ->
    same_result (@ct_sub_mod_mp_mp c1 a b n) (@ct_sub_mod_mp_mp c2 a b n)) /\
  (forall a n, @mp_ok c1 a -> @mp_ok c1 n -> @mpval c1 a < @mpval c1 n -> @mp_len c1 n <= @mp_len c1 a ->
    same_result (@ct_negate_mod_mp c1 a n) (@ct_negate_mod_mp c2 a n)).
Proof.
  intros c1 c2 T. rewrite (target_eq c1 c2 T). clear T. set (c3 := mkcfg _ _ _ _). repeat apply conj; intros.
  - apply (same_of _ _ _ _ _ (C19_add_mod_partial c1 a b n H H0 H1 H2 H3 H5) (C19_add_mod_partial c3 a b n H H0 H1 H2 H3 H5)). intros [x k] [y l] [[-> X]|(_ & _ & X)] [[-> Y]|(_ & _ & Y)]; [f_equal; exact (bec_eq c1 _ _ _ _ X Y)|change (@mp_len c1 a < @mp_len c1 n) in Y|change (@mp_len c1 a < @mp_len c1 n) in X|change (@mp_len c1 a < @mp_len c1 n) in X]; lia.
  - apply (same_of _ _ _ _ _ (C19_sub_mod_partial c1 a b n H H0 H1 H2 H3 H5) (C19_sub_mod_partial c3 a b n H H0 H1 H2 H3 H5)). intros [x k] [y l] [[-> X]|(_ & _ & X)] [[-> Y]|(_ & _ & Y)]; [f_equal; exact (bec_eq c1 _ _ _ _ X Y)|change (@mp_len c1 a < @mp_len c1 n) in Y|change (@mp_len c1 a < @mp_len c1 n) in X|change (@mp_len c1 a < @mp_len c1 n) in X]; lia.
  - apply (same_of _ _ _ _ _ (C19_negate_mod c1 a n H H0 H1) (C19_negate_mod c3 a n H H0 H1)). intros [x k] [y l] [[-> X]|(_ & _ & X)] [[-> Y]|(_ & _ & Y)]; [f_equal; exact (bec_eq c1 _ _ _ _ X Y)|change (@mp_len c1 a < @mp_len c1 n) in Y|change (@mp_len c1 a < @mp_len c1 n) in X|change (@mp_len c1 a < @mp_len c1 n) in X]; lia.
Qed.

Lemma b44_shift_mul : forall (c1 c2 : cfg), same_target c1 c2 ->
  (forall a d, @mp_ok c1 a -> 0 <= d < 2 ^ @UW c1 -> same_result (@ct_lshift_mp c1 a d) (@ct_lshift_mp c2 a d)) /\
  (forall a d, @mp_ok c1 a -> 0 <= d < 2 ^ @UW c1 -> same_result (@ct_rshift_mp c1 a d) (@ct_rshift_mp c2 a d)) /\
  (forall a n b, @mp_ok c1 a -> @mp_ok c1 b -> 0 <= n <= @mp_len c1 a -> same_result (@ct_mul_trunc_mp_mp c1 a n b) (@ct_mul_trunc_mp_mp c2 a n b)) /\
  (forall a n b z, @mp_ok c1 a -> @mp_ok c1 b -> 0 <= n <= @mp_len c1 a -> @mpval c1 a < 256 ^ n ->
    same_result (@ct_mul_trunc_cond_mp_mp c1 a n b (@choice c1 z)) (@ct_mul_trunc_cond_mp_mp c2 a n b (@choice c2 z))) /\
  (forall a n x, @mp_ok c1 a -> 0 <= n <= @mp_len c1 a -> 0 <= x < @B c1 -> same_result (@ct_mul_trunc_mp_l c1 a n x) (@ct_mul_trunc_mp_l c2 a n x)) /\
  (forall a n, @mp_ok c1 a -> 0 <= n <= @mp_len c1 a ->
    (let limb i := @mpval c1 a mod 256 ^ n / @B c1 ^ i mod @B c1 in
     forall i j, 0 <= i < j -> limb i * limb j / @B c1 <> @B c1 / 2 - 1 /\ limb i * limb j / @B c1 <> @B c1 / 2 - 2) ->
    same_result (@ct_square_trunc_mp c1 a n) (@ct_square_trunc_mp c2 a n)).
Proof.
  intros c1 c2 T. rewrite (target_eq c1 c2 T). clear T. set (c3 := mkcfg _ _ _ _). repeat apply conj; intros.
  - apply (same_of _ _ _ _ _ (C20_lshift c1 a d H H0) (C20_lshift c3 a d H H0)). intros [x k] [y l] [X1 X2] [Y1 Y2]. f_equal; [exact (bec_eq c1 _ _ _ _ X1 Y1)|rewrite X2, Y2; reflexivity].
  - apply (same_of _ _ _ _ _ (C21_rshift c1 a d H H0) (C21_rshift c3 a d H H0)). intros [x k] [y l] [X1 X2] [Y1 Y2]. f_equal; [exact (bec_eq c1 _ _ _ _ X1 Y1)|rewrite X2, Y2; reflexivity].
  - apply (same_of _ _ _ _ _ (C22_mul c1 a n b H H0 H1) (C22_mul c3 a n b H H0 H1)). intros x y. apply (bec_eq c1).
  - apply (same_of _ _ _ _ _ (C22_mul_cond c1 a n b z H H0 H1 H2) (C22_mul_cond c3 a n b z H H0 H1 H2)). intros x y. apply (bec_eq c1).
  - apply (same_of _ _ _ _ _ (C24_mul_limb c1 a n x H H0 H1) (C24_mul_limb c3 a n x H H0 H1)). intros u v. apply (bec_eq c1).
  - apply (same_of _ _ _ _ _ (C23_square_partial c1 a n H H0 H1) (C23_square_partial c3 a n H H0 H1)). intros x y. apply (bec_eq c1).
Qed.

Lemma b44_divide : forall (c1 c2 : cfg), same_target c1 c2 -> forall d1 d2 D n, @divisor_for c1 d1 D -> @divisor_for c2 d2 D -> byte_len D n ->
  (forall uh ul q, @u_ok c1 uh ul -> @q_ok c1 q ->
    match q with Some b => @mp_len c1 ul + @uhlen c1 uh <= @mp_len c1 b + n | None => True end -> @q_fits c1 q (@uval c1 uh ul / D) ->
    same_result (@ct_div_mp_mp c1 uh ul d1 q) (@ct_div_mp_mp c2 uh ul d2 q)) /\
  (forall uh ul, @u_ok c1 uh ul -> same_result (@ct_mod_mp_mp c1 uh ul d1) (@ct_mod_mp_mp c2 uh ul d2)) /\
  (forall k r q, 0 <= k -> k + 9 < 2 ^ @UW c1 -> @mp_ok c1 r -> @q_ok c1 q -> Z.min n (k / 8 + 1) <= @mp_len c1 r ->
    match q with Some b => k / 8 + 1 <= @mp_len c1 b + n | None => True end -> @q_fits c1 q (2 ^ k / D) ->
    same_result (@ct_div_pow2_mp c1 k r d1 q) (@ct_div_pow2_mp c2 k r d2 q)) /\
  (forall u a e q, @mp_ok c1 u -> 0 <= a <= @mp_len c1 u -> @mpval c1 u < 256 ^ a -> 0 <= e -> a + e + @LB c1 < 2 ^ @UW c1 -> @q_ok c1 q ->
    Z.min n (a + e) <= @mp_len c1 u -> match q with Some b => a + e <= @mp_len c1 b + n | None => True end -> @q_fits c1 q (@mpval c1 u * 256 ^ e / D) ->
    same_result (@ct_div_lshifted_mp_mp c1 u a e d1 q) (@ct_div_lshifted_mp_mp c2 u a e d2 q)).
Proof.
  intros c1 c2 T. rewrite (target_eq c1 c2 T). clear T. set (c3 := mkcfg _ _ _ _). intros d1 d2 D n D1 D2 HL. repeat apply conj; intros.
  - apply (same_of _ _ _ _ _ (C25_div c1 uh ul d1 D n q H D1 HL H0 H1 H2) (C25_div c3 uh ul d2 D n q H D2 HL H0 H1 H2)).
    intros [[[r x] y] z] [[[r' x'] y'] z'] (E1 & A1 & A2 & A3 & A4 & A5 & A6) (F1 & B1 & B2 & B3 & B4 & B5 & B6). subst r r'.
    destruct (u_eq c1 uh ul x y x' y' (@uval c1 uh ul mod D) A1 A2 A3 A5 B1 B2 B3 B5) as [-> ->]. rewrite (q_eq c1 q z z' (@uval c1 uh ul / D) A4 A6 B4 B6). reflexivity.
  - apply (same_of _ _ _ _ _ (C25_mod c1 uh ul d1 D H D1) (C25_mod c3 uh ul d2 D H D2)).
    intros [x y] [x' y'] (A1 & A2 & A3 & A5) (B1 & B2 & B3 & B5).
    destruct (u_eq c1 uh ul x y x' y' (@uval c1 uh ul mod D) A1 A2 A3 A5 B1 B2 B3 B5) as [-> ->]. reflexivity.
  - apply (same_of _ _ _ _ _ (C26_div c1 k r d1 D n q H (or_introl H0) H1 D1 HL H2 H3 H4 H5) (C26_div c3 k r d2 D n q H (or_introl H0) H1 D2 HL H2 H3 H4 H5)).
    intros [[e x] y] [[e' x'] y'] (-> & A1 & A2 & A3) (-> & B1 & B2 & B3).
    rewrite (bec_eq c1 _ _ _ _ A1 B1), (q_eq c1 q y y' (2 ^ k / D) A2 A3 B2 B3). reflexivity.
  - apply (same_of _ _ _ _ _ (C27_div c1 u a e d1 D n q H H0 H1 H2 H3 D1 HL H4 H5 H6 H7) (C27_div c3 u a e d2 D n q H H0 H1 H2 H3 D2 HL H4 H5 H6 H7)).
    intros [[e0 x] y] [[e' x'] y'] (-> & A1 & A2 & A3) (-> & B1 & B2 & B3).
    rewrite (bec_eq c1 _ _ _ _ A1 B1), (q_eq c1 q y y' (@mpval c1 u * 256 ^ e / D) A2 A3 B2 B3). reflexivity.
Qed.

Lemma b44_montgomery : forall (c1 c2 : cfg), same_target c1 c2 ->
  (forall t n g, @mp_ok c1 t -> @mp_ok c1 n -> Z.odd (@mpval c1 n) = true -> 2 <= @nlimbs c1 n -> @neg_inv c1 n g -> @len_compat c1 n (@mp_len c1 t) ->
    @len_compat c1 t (2 * @mp_len c1 n) -> @mpval c1 t < @mpval c1 n * @mg_radix c1 n ->
    same_result (@ct_montgomery_redc_mp c1 t n g) (@ct_montgomery_redc_mp c2 t n g)) /\
  (forall r a b n g, @mp_ok c1 r -> @mp_ok c1 a -> @mp_ok c1 b -> @mp_ok c1 n -> Z.odd (@mpval c1 n) = true -> @neg_inv c1 n g -> @len_compat c1 n (@mp_len c1 r) ->
    @len_compat c1 a (@mp_len c1 n) -> @len_compat c1 b (@mp_len c1 n) -> @mpval c1 a < @mpval c1 n -> @mpval c1 b < @mpval c1 n -> 0 < @mp_len c1 b ->
    @B c1 * @mpval c1 b + @mpval c1 n <= @B c1 * @mg_radix c1 n ->
    (@same_bytes c1 r n \/ @mpval c1 a * @mpval c1 b + @mg_radix c1 n * @mpval c1 n <= @mg_radix c1 n * 256 ^ Z.min (@mp_len c1 r) (@mp_len c1 n)) ->
    same_result (@ct_montgomery_mul_mod_mp_mp c1 r a b n g) (@ct_montgomery_mul_mod_mp_mp c2 r a b n g)) /\
  (forall t n, @mp_ok c1 t -> @mp_ok c1 n -> Z.odd (@mpval c1 n) = true -> @len_compat c1 n (@mp_len c1 t) ->
    same_result (@ct_to_montgomery_form_direct_mp c1 t n) (@ct_to_montgomery_form_direct_mp c2 t n)) /\
  (forall r n, @mp_ok c1 r -> @mp_ok c1 n -> Z.odd (@mpval c1 n) = true -> @len_compat c1 n (@mp_len c1 r) -> 16 * (@mp_len c1 n + @LB c1) + 8 < 2 ^ @UW c1 ->
    same_result (@ct_montgomery_radix2_mod_n_mp c1 r n) (@ct_montgomery_radix2_mod_n_mp c2 r n)) /\
  (forall n, @mp_ok c1 n -> same_result (@ct_montgomery_neg_n0_inv_mod_l_mp c1 n) (@ct_montgomery_neg_n0_inv_mod_l_mp c2 n)).
Proof.
  intros c1 c2 T. rewrite (target_eq c1 c2 T). clear T. set (c3 := mkcfg _ _ _ _). repeat apply conj; intros.
  - apply (same_of _ _ _ _ _ (C29_redc_partial c1 t n g H H0 H1 H2 H3 H4 H5 H6) (C29_redc_partial c3 t n g H H0 H1 H2 H3 H4 H5 H6)). intros [e x] [e' y] (-> & v & X1 & X2) (-> & w & Y1 & Y2). rewrite (reduced_unique c1 n _ w v H1 Y2 X2) in Y1. f_equal. exact (bec_eq c1 _ _ _ _ X1 Y1).
  - apply (same_of _ _ _ _ _ (C30_mul_partial c1 r a b n g H H0 H1 H2 H3 H4 H5 H6 H7 H8 H9 H10 H11 H12) (C30_mul_partial c3 r a b n g H H0 H1 H2 H3 H4 H5 H6 H7 H8 H9 H10 H11 H12)). intros [e x] [e' y] (-> & v & X1 & X2) (-> & w & Y1 & Y2). rewrite (reduced_unique c1 n _ w v H3 Y2 X2) in Y1. f_equal. exact (bec_eq c1 _ _ _ _ X1 Y1).
  - apply (same_of _ _ _ _ _ (proj1 (C31_direct c1 t n H H0) H1 H2) (proj1 (C31_direct c3 t n H H0) H1 H2)). intros [e x] [e' y] [-> X] [-> Y]. f_equal. exact (bec_eq c1 _ _ _ _ X Y).
  - apply (same_of _ _ _ _ _ (proj1 (C31_radix2 c1 r n H H0) H1 H2 H3) (proj1 (C31_radix2 c3 r n H H0) H1 H2 H3)). intros [e x] [e' y] [-> X] [-> Y]. f_equal. exact (bec_eq c1 _ _ _ _ X Y).
  - destruct (Z.odd (@mpval c1 n)) eqn:O.
    + apply (same_of _ _ _ _ _ (proj1 (C29_neg_inv c1 n H) O) (proj1 (C29_neg_inv c3 n H) O)). intros x y (v & -> & X) (w & -> & Y). f_equal. exact (neg_inv_eq c1 n v w O X Y).
    + eexists. split; [exact (proj2 (C29_neg_inv c1 n H) O)|exact (proj2 (C29_neg_inv c3 n H) O)].
Qed.

Lemma b44_exp : forall (c1 c2 : cfg) r a n e nbits s, same_target c1 c2 -> @mp_ok c1 r -> @mp_ok c1 a -> @mp_ok c1 n -> @mp_ok c1 e -> @mp_ok c1 (NE s) -> Z.odd (@mpval c1 n) = true -> 2 <= @nlimbs c1 n ->
  @len_compat c1 n (@mp_len c1 r) -> @len_compat c1 a (@mp_len c1 n) -> @mpval c1 a < @mpval c1 n -> @len_compat c1 n (@mp_len c1 a) -> @nlimbs c1 n <= zlen s ->
  16 * (@mp_len c1 n + @LB c1) + 8 < 2 ^ @UW c1 -> @mg_carry_ok c1 n -> @mg_room c1 r n -> @mg_room c1 (NE s) n -> 0 <= nbits ->
  both (@ct_exp_mod_odd_mp_mp c1 r a n e nbits s) (@ct_exp_mod_odd_mp_mp c2 r a n e nbits s) (fun x y => fst (fst x) = fst (fst y) /\ fst (fst (fst x)) = Ok tt).
Proof.
  intros c1 c2 r a n e nbits s T. rewrite (target_eq c1 c2 T). clear T. set (c3 := mkcfg _ _ _ _). intros.
  apply (both_of _ _ _ _ _ _ (C32_exp_partial c1 r a n e nbits s H H0 H1 H2 H3 H4 H5 H6 H7 H8 H9 H10 H11 H12 H13 H14 H15) (C32_exp_partial c3 r a n e nbits s H H0 H1 H2 H3 H4 H5 H6 H7 H8 H9 H10 H11 H12 H13 H14 H15)).
  intros [[[x1 x2] x3] x4] [[[y1 y2] y3] y4] (-> & X & _) (-> & Y & _). cbn [fst]. split; [|reflexivity]. f_equal. exact (bec_eq c1 _ _ _ _ X Y).
Qed.

Lemma b44_gcd_lcm_inv : forall (c1 c2 : cfg), same_target c1 c2 ->
  (forall f h, @mp_ok c1 f -> @mp_ok c1 h -> Z.odd (@mpval c1 f) = true -> @mut_compat c1 f h -> @gcd_len_ok c1 (Z.max (@mp_len c1 f) (@mp_len c1 h)) ->
    same_result (@ct_gcd_odd_mp_mp c1 f h) (@ct_gcd_odd_mp_mp c2 f h)) /\
  (forall a b, @mp_ok c1 a -> @mp_ok c1 b -> 0 < @mp_len c1 a -> @mut_compat c1 a b -> @gcd_len_ok c1 (Z.max (@mp_len c1 a) (@mp_len c1 b)) ->
    same_result (@ct_gcd_mp_mp c1 a b) (@ct_gcd_mp_mp c2 a b)) /\
  (forall res op0 l0 op1 l1 scr, @mp_ok c1 res -> @mp_ok c1 op0 -> @mp_ok c1 op1 -> @mp_ok c1 scr -> kind_of scr = kind_of op1 ->
    @mp_len c1 op0 = @mp_len c1 op1 -> @gcd_len_ok c1 (@mp_len c1 op0) -> 0 < l0 <= @mp_len c1 op0 -> 0 < l1 <= @mp_len c1 op1 ->
    @mpval c1 op0 < 256 ^ l0 -> @mpval c1 op1 < 256 ^ l1 -> l0 + l1 <= @mp_len c1 res -> l0 + l1 <= @mp_len c1 scr ->
    (kind_of op1 = KNE -> (l0 + l1) mod @LB c1 = 0 /\ l0 + l1 + (@ct_mp_limbs_align_len c1 (Z.max l0 l1) - Z.max l0 l1) <= @mp_len c1 res) ->
    both (@ct_lcm_mp_mp c1 res op0 l0 op1 l1 scr) (@ct_lcm_mp_mp c2 res op0 l0 op1 l1 scr)
      (fun x y => fst (fst (fst x)) = fst (fst (fst y)) /\ fst (fst (fst (fst x))) = Ok tt)) /\
  (forall res op0 n s0 s1, @mp_ok c1 res -> @mp_ok c1 op0 -> @mp_ok c1 n -> Z.odd (@mpval c1 n) = true -> 1 < @mpval c1 n ->
    @len_compat c1 n (@mp_len c1 res) -> @mut_compat c1 op0 n -> @mp_ok c1 (NE s0) -> @mp_ok c1 (NE s1) -> @nlimbs c1 n <= zlen s0 -> @nlimbs c1 n <= zlen s1 ->
    @gcd_len_ok c1 (@LB c1 * @nlimbs c1 n) -> @mpval c1 n <= @B c1 ^ (@nlimbs c1 n - 1) -> Z.gcd (@mpval c1 n) (@mpval c1 op0) = 1 ->
    both (@ct_inv_mod_odd_mp_mp c1 res op0 n s0 s1) (@ct_inv_mod_odd_mp_mp c2 res op0 n s0 s1)
      (fun x y => fst (fst x) = fst (fst y) /\ fst (fst (fst (fst x))) = Ok tt)).
Proof.
  intros c1 c2 T. rewrite (target_eq c1 c2 T). clear T. set (c3 := mkcfg _ _ _ _). repeat apply conj; intros.
  - apply (same_of _ _ _ _ _ (C33_gcd_odd c1 f h H H0 H1 H2 H3) (C33_gcd_odd c3 f h H H0 H1 H2 H3)). intros [[r x] y] [[r' x'] y'] (-> & X1 & X2) (-> & Y1 & Y2). rewrite (bec_eq c1 _ _ _ _ X1 Y1), (bec_eq c1 _ _ _ _ X2 Y2). reflexivity.
  - destruct (Z.eq_dec (@mpval c1 a) 0) as [Za|Za]; [destruct (Z.eq_dec (@mpval c1 b) 0) as [Zb|Zb]|].
    + apply (same_of _ _ _ _ _ (C33_gcd_both_zero c1 a b H H0 H1 H2 H3 Za Zb) (C33_gcd_both_zero c3 a b H H0 H1 H2 H3 Za Zb)).
      intros [[r x] y] [[r' x'] y'] (-> & X1 & X2) (-> & Y1 & Y2). rewrite (bec_eq c1 _ _ _ _ X1 Y1), (bec_eq c1 _ _ _ _ X2 Y2). reflexivity.
    + apply (same_of _ _ _ _ _ (C33_gcd c1 a b H H0 H1 H2 H3 (or_intror Zb)) (C33_gcd c3 a b H H0 H1 H2 H3 (or_intror Zb))).
      intros [[r x] y] [[r' x'] y'] (-> & X1 & X2) (-> & Y1 & Y2). rewrite (bec_eq c1 _ _ _ _ X1 Y1), (bec_eq c1 _ _ _ _ X2 Y2). reflexivity.
    + apply (same_of _ _ _ _ _ (C33_gcd c1 a b H H0 H1 H2 H3 (or_introl Za)) (C33_gcd c3 a b H H0 H1 H2 H3 (or_introl Za))).
      intros [[r x] y] [[r' x'] y'] (-> & X1 & X2) (-> & Y1 & Y2). rewrite (bec_eq c1 _ _ _ _ X1 Y1), (bec_eq c1 _ _ _ _ X2 Y2). reflexivity.
  - apply (both_of _ _ _ _ _ _ (C37_lcm_partial c1 res op0 l0 op1 l1 scr H H0 H1 H2 H3 H4 H5 H6 H7 H8 H9 H10 H11 H12) (C37_lcm_partial c3 res op0 l0 op1 l1 scr H H0 H1 H2 H3 H4 H5 H6 H7 H8 H9 H10 H11 H12)).
    intros [[[[x1 x2] x3] x4] x5] [[[[y1 y2] y3] y4] y5] (-> & X & _) (-> & Y & _). cbn [fst]. split; [|reflexivity]. f_equal. exact (bec_eq c1 _ _ _ _ X Y).
  - apply (both_of _ _ _ _ _ _ (C34_inv_odd_partial c1 res op0 n s0 s1 H H0 H1 H2 H3 H4 H5 H6 H7 H8 H9 H10 H11 H12) (C34_inv_odd_partial c3 res op0 n s0 s1 H H0 H1 H2 H3 H4 H5 H6 H7 H8 H9 H10 H11 H12)).
    intros [[[[x1 x2] x3] x4] x5] [[[[y1 y2] y3] y4] y5] (-> & I1 & X & X') (-> & I2 & Y & Y'). cbn [fst]. split; [|reflexivity].
    rewrite (bec_eq c1 _ _ _ _ X' Y'). f_equal. f_equal. rewrite (inverse_unique (@mpval c1 n) (@mpval c1 op0) _ _ ltac:(lia) I2 I1) in Y. exact (bec_eq c1 _ _ _ _ X Y).
Qed.

Lemma b44_prime : forall (c1 c2 : cfg), same_target c1 c2 ->
  (forall p s0 s1, @mp_ok c1 p -> 0 < @mp_len c1 p -> @mp_ok c1 (NE s0) -> @mp_ok c1 (NE s1) -> @nlimbs c1 p <= zlen s0 -> @nlimbs c1 p <= zlen s1 -> @gcd_len_ok c1 (@LB c1 * @nlimbs c1 p) ->
    same_result (@ct_composite_test_small_prime_gcd_mp c1 p s0 s1) (@ct_composite_test_small_prime_gcd_mp c2 p s0 s1)) /\
  (forall base p radix s0 s1 a, @mp_ok c1 base -> @mp_ok c1 p -> @mp_ok c1 radix -> @mp_ok c1 (NE s0) -> @mp_ok c1 (NE s1) ->
    Z.odd (@mpval c1 p) = true -> 2 < @mpval c1 p -> @len_compat c1 base (@mp_len c1 p) -> 0 < @mp_len c1 base -> @len_compat c1 radix (@mp_len c1 p) -> @nlimbs c1 radix = @nlimbs c1 p ->
    @nlimbs c1 p <= zlen s0 -> @nlimbs c1 p <= zlen s1 -> @mpval c1 base = (a * @mg_radix c1 p) mod @mpval c1 p -> @mpval c1 radix = @mg_radix c1 p mod @mpval c1 p ->
    @mg_carry_ok c1 p -> @mg_room c1 (NE s0) p -> @mg_room c1 (NE s1) p ->
    same_result (@ct_prime_test_miller_rabin_mp c1 base p radix s0 s1) (@ct_prime_test_miller_rabin_mp c2 base p radix s0 s1)).
Proof.
  intros c1 c2 T. rewrite (target_eq c1 c2 T). clear T. set (c3 := mkcfg _ _ _ _). repeat apply conj; intros.
  - destruct (C38_screen c1 p s0 s1 H H0 H1 H2 H3 H4 H5) as (x & X1 & X2). destruct (C38_screen c3 p s0 s1 H H0 H1 H2 H3 H4 H5) as (y & Y1 & Y2).
    change (@screen_limit c3 p) with (@screen_limit c1 p) in Y2. change (@mpval c3 p) with (@mpval c1 p) in Y2.
    assert (x = y) by (apply eq_true_iff_eq; tauto). subst y. eexists. split; [exact X1|exact Y1].
  - destruct (C39_miller_rabin_partial c1 base p radix s0 s1 a H H0 H1 H2 H3 H4 H5 H6 H7 H8 H9 H10 H11 H12 H13 H14 H15 H16) as (x & X1 & X2).
    destruct (C39_miller_rabin_partial c3 base p radix s0 s1 a H H0 H1 H2 H3 H4 H5 H6 H7 H8 H9 H10 H11 H12 H13 H14 H15 H16) as (y & Y1 & Y2).
    change (@mpval c3 p) with (@mpval c1 p) in Y2. assert (x = y) by (apply eq_true_iff_eq; tauto). subst y. eexists. split; [exact X1|exact Y1].
Qed.

Lemma b45_compare : forall (c1 c2 : cfg),
  (forall a1 b1 a2 b2, same_int c1 a1 c2 a2 -> same_int c1 b1 c2 b2 ->
    both (@ct_eq_mp_mp c1 a1 b1) (@ct_eq_mp_mp c2 a2 b2) (fun x y => exists t, x = @choice c1 t /\ y = @choice c2 t) /\
    both (@ct_neq_mp_mp c1 a1 b1) (@ct_neq_mp_mp c2 a2 b2) (fun x y => exists t, x = @choice c1 t /\ y = @choice c2 t) /\
    both (@ct_lt_mp_mp c1 a1 b1) (@ct_lt_mp_mp c2 a2 b2) (fun x y => exists t, x = @choice c1 t /\ y = @choice c2 t) /\
    both (@ct_leq_mp_mp c1 a1 b1) (@ct_leq_mp_mp c2 a2 b2) (fun x y => exists t, x = @choice c1 t /\ y = @choice c2 t) /\
    both (@ct_gt_mp_mp c1 a1 b1) (@ct_gt_mp_mp c2 a2 b2) (fun x y => exists t, x = @choice c1 t /\ y = @choice c2 t) /\
    both (@ct_geq_mp_mp c1 a1 b1) (@ct_geq_mp_mp c2 a2 b2) (fun x y => exists t, x = @choice c1 t /\ y = @choice c2 t)).
Proof.
  intros c1 c2 a1 b1 a2 b2 (Oa1 & Oa2 & Ea) (Ob1 & Ob2 & Eb). destruct (C16_compare c1 a1 b1 Oa1 Ob1) as (A1 & A2 & A3 & A4 & A5 & A6). destruct (C16_compare c2 a2 b2 Oa2 Ob2) as (B1 & B2 & B3 & B4 & B5 & B6).
  rewrite <- Ea, <- Eb in *. repeat apply conj; (eexists; eexists; split; [eassumption|]; split; [eassumption|]; eexists; split; reflexivity).
Qed.

Lemma b45_add_sub : forall (c1 c2 : cfg),
  (forall a1 b1 a2 b2, reencoded c1 a1 c2 a2 -> same_int c1 b1 c2 b2 -> @mp_len c1 b1 <= @mp_len c1 a1 -> @mp_len c2 b2 <= @mp_len c2 a2 ->
    both (@ct_add_mp_mp c1 a1 b1) (@ct_add_mp_mp c2 a2 b2) (fun '(x, k) '(y, l) => reencoded c1 x c2 y /\ k = l)) /\
  (forall a1 b1 a2 b2, reencoded c1 a1 c2 a2 -> same_int c1 b1 c2 b2 -> @mp_len c1 b1 <= @mp_len c1 a1 -> @mp_len c2 b2 <= @mp_len c2 a2 ->
    both (@ct_sub_mp_mp c1 a1 b1) (@ct_sub_mp_mp c2 a2 b2) (fun '(x, k) '(y, l) => reencoded c1 x c2 y /\ k = l)) /\
  (forall z a1 b1 a2 b2, reencoded c1 a1 c2 a2 -> same_int c1 b1 c2 b2 -> @mp_len c1 b1 <= @mp_len c1 a1 -> @mp_len c2 b2 <= @mp_len c2 a2 ->
    both (@ct_add_cond_mp_mp c1 a1 b1 (@choice c1 z)) (@ct_add_cond_mp_mp c2 a2 b2 (@choice c2 z)) (fun '(x, k) '(y, l) => reencoded c1 x c2 y /\ k = l)) /\
  (forall z a1 b1 a2 b2, reencoded c1 a1 c2 a2 -> same_int c1 b1 c2 b2 -> @mp_len c1 b1 <= @mp_len c1 a1 -> @mp_len c2 b2 <= @mp_len c2 a2 ->
    both (@ct_sub_cond_mp_mp c1 a1 b1 (@choice c1 z)) (@ct_sub_cond_mp_mp c2 a2 b2 (@choice c2 z)) (fun '(x, k) '(y, l) => reencoded c1 x c2 y /\ k = l)) /\
  (forall a1 a2, reencoded c1 a1 c2 a2 -> both (@ct_negate_mp c1 a1) (@ct_negate_mp c2 a2) (fun x y => reencoded c1 x c2 y)).
Proof.
  intros c1 c2. split; [|split; [|split; [|split]]].
  - intros a1 b1 a2 b2 [(Oa1 & Oa2 & Ea) La] (Ob1 & Ob2 & Eb) L1 L2. apply (both_of _ _ _ _ _ _ (C17_add c1 a1 b1 Oa1 Ob1 (nlimbs_le c1 _ _ L1) (val_fits c1 _ _ Ob1 L1)) (C17_add c2 a2 b2 Oa2 Ob2 (nlimbs_le c2 _ _ L2) (val_fits c2 _ _ Ob2 L2))).
    intros [x k] [y l] [X ->] [Y ->]. rewrite <- Ea, <- Eb, <- La in *. split; [exact (bec_re c1 c2 _ _ _ _ _ X Y La)|reflexivity].
  - intros a1 b1 a2 b2 [(Oa1 & Oa2 & Ea) La] (Ob1 & Ob2 & Eb) L1 L2. apply (both_of _ _ _ _ _ _ (C18_sub c1 a1 b1 Oa1 Ob1 (nlimbs_le c1 _ _ L1) (val_fits c1 _ _ Ob1 L1)) (C18_sub c2 a2 b2 Oa2 Ob2 (nlimbs_le c2 _ _ L2) (val_fits c2 _ _ Ob2 L2))).
    intros [x k] [y l] [X ->] [Y ->]. rewrite <- Ea, <- Eb, <- La in *. split; [exact (bec_re c1 c2 _ _ _ _ _ X Y La)|reflexivity].
  - intros z a1 b1 a2 b2 [(Oa1 & Oa2 & Ea) La] (Ob1 & Ob2 & Eb) L1 L2. apply (both_of _ _ _ _ _ _ (C17_add_cond c1 a1 b1 z Oa1 Ob1 (nlimbs_le c1 _ _ L1) (fun _ => val_fits c1 _ _ Ob1 L1)) (C17_add_cond c2 a2 b2 z Oa2 Ob2 (nlimbs_le c2 _ _ L2) (fun _ => val_fits c2 _ _ Ob2 L2))).
    intros [x k] [y l] [X ->] [Y ->]. rewrite <- Ea, <- Eb, <- La in *. split; [exact (bec_re c1 c2 _ _ _ _ _ X Y La)|reflexivity].
  - intros z a1 b1 a2 b2 [(Oa1 & Oa2 & Ea) La] (Ob1 & Ob2 & Eb) L1 L2. apply (both_of _ _ _ _ _ _ (C18_sub_cond c1 a1 b1 z Oa1 Ob1 (nlimbs_le c1 _ _ L1) (fun _ => val_fits c1 _ _ Ob1 L1)) (C18_sub_cond c2 a2 b2 z Oa2 Ob2 (nlimbs_le c2 _ _ L2) (fun _ => val_fits c2 _ _ Ob2 L2))).
    intros [x k] [y l] [X ->] [Y ->]. rewrite <- Ea, <- Eb, <- La in *. split; [exact (bec_re c1 c2 _ _ _ _ _ X Y La)|reflexivity].
  - intros a1 a2 [(Oa1 & Oa2 & Ea) La]. apply (both_of _ _ _ _ _ _ (proj1 (C18_negate c1 a1 Oa1)) (proj1 (C18_negate c2 a2 Oa2))).
    intros x y X Y. rewrite <- Ea, <- La in Y. exact (bec_re c1 c2 _ _ _ _ _ X Y La).
Qed.

Lemma b45_mod_arith : forall (c1 c2 : cfg),
  (forall a1 b1 n1 a2 b2 n2, reencoded c1 a1 c2 a2 -> same_int c1 b1 c2 b2 -> reencoded c1 n1 c2 n2 -> @mpval c1 a1 < @mpval c1 n1 -> @mpval c1 b1 < @mpval c1 n1 ->
    @mp_len c1 n1 = @mp_len c1 a1 ->
    both (@ct_add_mod_mp_mp c1 a1 b1 n1) (@ct_add_mod_mp_mp c2 a2 b2 n2) (fun '(x, r) '(y, s) => reencoded c1 x c2 y /\ r = Ok tt /\ s = Ok tt)) /\
  (forall a1 b1 n1 a2 b2 n2, reencoded c1 a1 c2 a2 -> same_int c1 b1 c2 b2 -> reencoded c1 n1 c2 n2 -> @mpval c1 a1 < @mpval c1 n1 -> @mpval c1 b1 < @mpval c1 n1 ->
    @mp_len c1 n1 = @mp_len c1 a1 ->
    both (@ct_sub_mod_mp_mp c1 a1 b1 n1) (@ct_sub_mod_mp_mp c2 a2 b2 n2) (fun '(x, r) '(y, s) => reencoded c1 x c2 y /\ r = Ok tt /\ s = Ok tt)).
Proof.
  intros c1 c2. split.
  - intros a1 b1 n1 a2 b2 n2 [(Oa1 & Oa2 & Ea) La] (Ob1 & Ob2 & Eb) [(On1 & On2 & En) Ln] V1 V2 L.
    assert (V1' : @mpval c2 a2 < @mpval c2 n2) by lia. assert (V2' : @mpval c2 b2 < @mpval c2 n2) by lia.
    assert (N1 : @nlimbs c1 a1 = @nlimbs c1 n1) by (unfold nlimbs; congruence). assert (N2 : @nlimbs c2 a2 = @nlimbs c2 n2) by (unfold nlimbs; congruence).
    apply (both_of _ _ _ _ _ _ (C19_add_mod_partial c1 a1 b1 n1 Oa1 Ob1 On1 V1 V2 (or_introl N1)) (C19_add_mod_partial c2 a2 b2 n2 Oa2 Ob2 On2 V1' V2' (or_introl N2))).
    intros [x k] [y l] [[-> X]|(_ & _ & X)] [[-> Y]|(_ & _ & Y)]; try lia. rewrite <- Ea, <- Eb, <- En in Y. split; [exact (bec_re c1 c2 _ _ _ _ _ X Y La)|split; reflexivity].
  - intros a1 b1 n1 a2 b2 n2 [(Oa1 & Oa2 & Ea) La] (Ob1 & Ob2 & Eb) [(On1 & On2 & En) Ln] V1 V2 L.
    assert (V1' : @mpval c2 a2 < @mpval c2 n2) by lia. assert (V2' : @mpval c2 b2 < @mpval c2 n2) by lia.
    assert (N1 : @nlimbs c1 a1 = @nlimbs c1 n1) by (unfold nlimbs; congruence). assert (N2 : @nlimbs c2 a2 = @nlimbs c2 n2) by (unfold nlimbs; congruence).
    apply (both_of _ _ _ _ _ _ (C19_sub_mod_partial c1 a1 b1 n1 Oa1 Ob1 On1 V1 V2 (or_introl N1)) (C19_sub_mod_partial c2 a2 b2 n2 Oa2 Ob2 On2 V1' V2' (or_introl N2))).
    intros [x k] [y l] [[-> X]|(_ & _ & X)] [[-> Y]|(_ & _ & Y)]; try lia. rewrite <- Ea, <- Eb, <- En in Y. split; [exact (bec_re c1 c2 _ _ _ _ _ X Y La)|split; reflexivity].
Qed.

Lemma b45_shift_mul : forall (c1 c2 : cfg),
  (forall d a1 a2, reencoded c1 a1 c2 a2 -> 0 <= d < 2 ^ @UW c1 -> d < 2 ^ @UW c2 ->
    both (@ct_lshift_mp c1 a1 d) (@ct_lshift_mp c2 a2 d) (fun '(x, _) '(y, _) => reencoded c1 x c2 y)) /\
  (forall d a1 a2, reencoded c1 a1 c2 a2 -> 0 <= d < 2 ^ @UW c1 -> d < 2 ^ @UW c2 ->
    both (@ct_rshift_mp c1 a1 d) (@ct_rshift_mp c2 a2 d) (fun '(x, _) '(y, _) => reencoded c1 x c2 y)) /\
  (forall n a1 b1 a2 b2, reencoded c1 a1 c2 a2 -> same_int c1 b1 c2 b2 -> 0 <= n <= @mp_len c1 a1 ->
    both (@ct_mul_trunc_mp_mp c1 a1 n b1) (@ct_mul_trunc_mp_mp c2 a2 n b2) (fun x y => reencoded c1 x c2 y)).
Proof.
  intros c1 c2. split; [|split].
  - intros d a1 a2 [(Oa1 & Oa2 & Ea) La] H H1. apply (both_of _ _ _ _ _ _ (C20_lshift c1 a1 d Oa1 H) (C20_lshift c2 a2 d Oa2 (conj (proj1 H) H1))).
    intros [x k] [y l] [X _] [Y _]. rewrite <- Ea, <- La in Y. exact (bec_re c1 c2 _ _ _ _ _ X Y La).
  - intros d a1 a2 [(Oa1 & Oa2 & Ea) La] H H1. apply (both_of _ _ _ _ _ _ (C21_rshift c1 a1 d Oa1 H) (C21_rshift c2 a2 d Oa2 (conj (proj1 H) H1))).
    intros [x k] [y l] [X _] [Y _]. rewrite <- Ea in Y. exact (bec_re c1 c2 _ _ _ _ _ X Y La).
  - intros n a1 b1 a2 b2 [(Oa1 & Oa2 & Ea) La] (Ob1 & Ob2 & Eb) H. assert (H' : 0 <= n <= @mp_len c2 a2) by lia.
    apply (both_of _ _ _ _ _ _ (C22_mul c1 a1 n b1 Oa1 Ob1 H) (C22_mul c2 a2 n b2 Oa2 Ob2 H')).
    intros x y X Y. rewrite <- Ea, <- Eb, <- La in Y. exact (bec_re c1 c2 _ _ _ _ _ X Y La).
Qed.

Lemma b45_divide : forall (c1 c2 : cfg) d1 d2 D n, @divisor_for c1 d1 D -> @divisor_for c2 d2 D -> byte_len D n ->
  (forall u1 q1 u2 q2, reencoded c1 u1 c2 u2 -> reencoded_opt c1 q1 c2 q2 ->
    match q1 with Some b => @mp_len c1 u1 <= @mp_len c1 b + n | None => True end -> @q_fits c1 q1 (@mpval c1 u1 / D) ->
    both (@ct_div_mp_mp c1 None u1 d1 q1) (@ct_div_mp_mp c2 None u2 d2 q2)
      (fun '(r, _, x, q) '(s, _, y, p) => r = Ok tt /\ s = Ok tt /\ reencoded c1 x c2 y /\ reencoded_opt c1 q c2 p)) /\
  (forall u1 u2, reencoded c1 u1 c2 u2 -> both (@ct_mod_mp_mp c1 None u1 d1) (@ct_mod_mp_mp c2 None u2 d2) (fun '(_, x) '(_, y) => reencoded c1 x c2 y)).
Proof.
  intros c1 c2 d1 d2 D n D1 D2 HL. split.
  - intros u1 q1 u2 q2 [(Ou1 & Ou2 & Eu) Lu] HQ HR HF.
    assert (X1 : @u_ok c1 None u1) by (split; [exact Ou1|exact I]). assert (X2 : @u_ok c2 None u2) by (split; [exact Ou2|exact I]).
    assert (E1 : @uval c1 None u1 = @mpval c1 u1) by (unfold uval, uhval; lia). assert (E2 : @uval c2 None u2 = @mpval c1 u1) by (unfold uval, uhval; lia).
    pose proof (C25_div c1 None u1 d1 D n q1 X1 D1 HL) as Y1. pose proof (C25_div c2 None u2 d2 D n q2 X2 D2 HL) as Y2. cbv zeta in Y1, Y2. rewrite E1 in Y1. rewrite E2 in Y2.
    cbn [uhlen] in Y1, Y2. rewrite Z.add_0_r in Y1, Y2.
    assert (Z1 : @q_ok c1 q1 /\ @q_ok c2 q2).
    { unfold q_ok. destruct q1, q2; cbn in HQ; try tauto. destruct HQ as [(? & ? & ?) ?]. auto. }
    destruct Z1 as [Z1 Z2].
    assert (Z3 : match q2 with Some b => @mp_len c2 u2 <= @mp_len c2 b + n | None => True end).
    { destruct q1, q2; cbn in HQ; try tauto. destruct HQ as [_ LQ]. lia. }
    assert (Z4 : @q_fits c2 q2 (@mpval c1 u1 / D)).
    { destruct q1, q2; cbn in HQ; try tauto. destruct HQ as [_ LQ]. cbn [q_fits] in *. rewrite <- LQ. exact HF. }
    apply (both_of _ _ _ _ _ _ (Y1 Z1 HR HF) (Y2 Z2 Z3 Z4)).
    intros [[[r x] y] z] [[[r' x'] y'] z'] (-> & A1 & A2 & A3 & A4 & A5 & A6) (-> & B1 & B2 & B3 & B4 & B5 & B6).
    split; [reflexivity|]. split; [reflexivity|]. split.
    + apply (u_re c1 c2 u1 u2 x y x' y' (@mpval c1 u1 mod D)); auto.
    + apply (q_re c1 c2 q1 q2 z z' (@mpval c1 u1 / D)); auto.
  - intros u1 u2 [(Ou1 & Ou2 & Eu) Lu].
    assert (X1 : @u_ok c1 None u1) by (split; [exact Ou1|exact I]). assert (X2 : @u_ok c2 None u2) by (split; [exact Ou2|exact I]).
    assert (E1 : @uval c1 None u1 = @mpval c1 u1) by (unfold uval, uhval; lia). assert (E2 : @uval c2 None u2 = @mpval c1 u1) by (unfold uval, uhval; lia).
    pose proof (C25_mod c1 None u1 d1 D X1 D1) as Y1. pose proof (C25_mod c2 None u2 d2 D X2 D2) as Y2. rewrite E1 in Y1. rewrite E2 in Y2.
    apply (both_of _ _ _ _ _ _ Y1 Y2). intros [x y] [x' y'] (A1 & A2 & A3 & A5) (B1 & B2 & B3 & B5).
    apply (u_re c1 c2 u1 u2 x y x' y' (@mpval c1 u1 mod D)); auto.
Qed.

Lemma b45_exp : forall (c1 c2 : cfg) r1 a1 n1 e1 s1 r2 a2 n2 e2 s2 nbits, @mp_ok c1 r1 -> @mp_ok c1 a1 -> @mp_ok c1 n1 -> @mp_ok c1 e1 -> @mp_ok c1 (NE s1) -> 2 <= @nlimbs c1 n1 ->
  @len_compat c1 n1 (@mp_len c1 r1) -> @len_compat c1 a1 (@mp_len c1 n1) -> @len_compat c1 n1 (@mp_len c1 a1) -> @nlimbs c1 n1 <= zlen s1 ->
  16 * (@mp_len c1 n1 + @LB c1) + 8 < 2 ^ @UW c1 -> @mg_carry_ok c1 n1 -> @mg_room c1 r1 n1 -> @mg_room c1 (NE s1) n1 ->
  @mp_ok c2 r2 -> @mp_ok c2 a2 -> @mp_ok c2 n2 -> @mp_ok c2 e2 -> @mp_ok c2 (NE s2) -> 2 <= @nlimbs c2 n2 ->
  @len_compat c2 n2 (@mp_len c2 r2) -> @len_compat c2 a2 (@mp_len c2 n2) -> @len_compat c2 n2 (@mp_len c2 a2) -> @nlimbs c2 n2 <= zlen s2 ->
  16 * (@mp_len c2 n2 + @LB c2) + 8 < 2 ^ @UW c2 -> @mg_carry_ok c2 n2 -> @mg_room c2 r2 n2 -> @mg_room c2 (NE s2) n2 ->
  0 <= nbits -> Z.odd (@mpval c1 n1) = true -> @mpval c1 a1 < @mpval c1 n1 ->
  @mp_len c1 r1 = @mp_len c2 r2 -> @mpval c1 a1 = @mpval c2 a2 -> @mpval c1 n1 = @mpval c2 n2 -> @mpval c1 e1 = @mpval c2 e2 ->
  both (@ct_exp_mod_odd_mp_mp c1 r1 a1 n1 e1 nbits s1) (@ct_exp_mod_odd_mp_mp c2 r2 a2 n2 e2 nbits s2)
    (fun '(x, x', _, _) '(y, y', _, _) => x = Ok tt /\ y = Ok tt /\ reencoded c1 x' c2 y').
Proof.
  intros c1 c2 r1 a1 n1 e1 s1 r2 a2 n2 e2 s2 nbits P1 P2 P3 P4 P5 P6 P7 P8 P9 P10 P11 P12 P13 P14 Q1 Q2 Q3 Q4 Q5 Q6 Q7 Q8 Q9 Q10 Q11 Q12 Q13 Q14 Hb HO HV LR Ea En Ee.
  assert (HO2 : Z.odd (@mpval c2 n2) = true) by (rewrite <- En; exact HO). assert (HV2 : @mpval c2 a2 < @mpval c2 n2) by lia.
  apply (both_of _ _ _ _ _ _ (C32_exp_partial c1 r1 a1 n1 e1 nbits s1 P1 P2 P3 P4 P5 HO P6 P7 P8 HV P9 P10 P11 P12 P13 P14 Hb) (C32_exp_partial c2 r2 a2 n2 e2 nbits s2 Q1 Q2 Q3 Q4 Q5 HO2 Q6 Q7 Q8 HV2 Q9 Q10 Q11 Q12 Q13 Q14 Hb)).
  intros [[[x1 x2] x3] x4] [[[y1 y2] y3] y4] (-> & X & _) (-> & Y & _). rewrite <- Ea, <- En, <- Ee in Y.
  split; [reflexivity|]. split; [reflexivity|]. exact (bec_re c1 c2 _ _ _ _ _ X Y LR).
Qed.

Lemma b45_gcd : forall (c1 c2 : cfg),
  (forall a1 b1 a2 b2, reencoded c1 a1 c2 a2 -> reencoded c1 b1 c2 b2 -> 0 < @mp_len c1 a1 -> @mp_len c1 a1 = @mp_len c1 b1 -> @gcd_len_ok c1 (@mp_len c1 a1) -> @gcd_len_ok c2 (@mp_len c2 a2) ->
    both (@ct_gcd_mp_mp c1 a1 b1) (@ct_gcd_mp_mp c2 a2 b2) (fun '(r, x, u) '(s, y, v) => r = Ok tt /\ s = Ok tt /\ reencoded c1 x c2 y /\ reencoded c1 u c2 v)).
Proof.
  intros c1 c2 a1 b1 a2 b2 [(Oa1 & Oa2 & Ea) La] [(Ob1 & Ob2 & Eb) Lb] L0 L G1 G2.
  assert (L0' : 0 < @mp_len c2 a2) by lia. assert (L' : @mp_len c2 a2 = @mp_len c2 b2) by lia.
  assert (M1 : @mut_compat c1 a1 b1) by (split; left; lia). assert (M2 : @mut_compat c2 a2 b2) by (split; left; lia).
  rewrite <- (Z.max_id (@mp_len c1 a1)) in G1. rewrite L in G1 at 2. rewrite <- (Z.max_id (@mp_len c2 a2)) in G2. rewrite L' in G2 at 2.
  destruct (Z.eq_dec (@mpval c1 a1) 0) as [Za|Za]; [destruct (Z.eq_dec (@mpval c1 b1) 0) as [Zb|Zb]|].
  - assert (Za' : @mpval c2 a2 = 0) by congruence. assert (Zb' : @mpval c2 b2 = 0) by congruence.
    apply (both_of _ _ _ _ _ _ (C33_gcd_both_zero c1 a1 b1 Oa1 Ob1 L0 M1 G1 Za Zb) (C33_gcd_both_zero c2 a2 b2 Oa2 Ob2 L0' M2 G2 Za' Zb')).
    intros [[r x] u] [[s y] v] (-> & X1 & X2) (-> & Y1 & Y2). rewrite <- ?Ea, <- ?Eb in Y1.
    split; [reflexivity|]. split; [reflexivity|]. split; [exact (bec_re c1 c2 _ _ _ _ _ X1 Y1 La)|exact (bec_re c1 c2 _ _ _ _ _ X2 Y2 Lb)].
  - assert (Zb' : @mpval c2 b2 <> 0) by congruence.
    apply (both_of _ _ _ _ _ _ (C33_gcd c1 a1 b1 Oa1 Ob1 L0 M1 G1 (or_intror Zb)) (C33_gcd c2 a2 b2 Oa2 Ob2 L0' M2 G2 (or_intror Zb'))).
    intros [[r x] u] [[s y] v] (-> & X1 & X2) (-> & Y1 & Y2). rewrite <- ?Ea, <- ?Eb in Y1.
    split; [reflexivity|]. split; [reflexivity|]. split; [exact (bec_re c1 c2 _ _ _ _ _ X1 Y1 La)|exact (bec_re c1 c2 _ _ _ _ _ X2 Y2 Lb)].
  - assert (Za' : @mpval c2 a2 <> 0) by congruence.
    apply (both_of _ _ _ _ _ _ (C33_gcd c1 a1 b1 Oa1 Ob1 L0 M1 G1 (or_introl Za)) (C33_gcd c2 a2 b2 Oa2 Ob2 L0' M2 G2 (or_introl Za'))).
    intros [[r x] u] [[s y] v] (-> & X1 & X2) (-> & Y1 & Y2). rewrite <- ?Ea, <- ?Eb in Y1.
    split; [reflexivity|]. split; [reflexivity|]. split; [exact (bec_re c1 c2 _ _ _ _ _ X1 Y1 La)|exact (bec_re c1 c2 _ _ _ _ _ X2 Y2 Lb)].
Qed.

Lemma b45_miller_rabin : forall (c1 c2 : cfg) base1 p1 radix1 s1 t1 base2 p2 radix2 s2 t2 a, @mp_ok c1 base1 -> @mp_ok c1 p1 -> @mp_ok c1 radix1 -> @mp_ok c1 (NE s1) -> @mp_ok c1 (NE t1) ->
  @len_compat c1 base1 (@mp_len c1 p1) -> 0 < @mp_len c1 base1 -> @len_compat c1 radix1 (@mp_len c1 p1) -> @nlimbs c1 radix1 = @nlimbs c1 p1 ->
  @nlimbs c1 p1 <= zlen s1 -> @nlimbs c1 p1 <= zlen t1 -> @mpval c1 base1 = (a * @mg_radix c1 p1) mod @mpval c1 p1 -> @mpval c1 radix1 = @mg_radix c1 p1 mod @mpval c1 p1 ->
  @mg_carry_ok c1 p1 -> @mg_room c1 (NE s1) p1 -> @mg_room c1 (NE t1) p1 ->
  @mp_ok c2 base2 -> @mp_ok c2 p2 -> @mp_ok c2 radix2 -> @mp_ok c2 (NE s2) -> @mp_ok c2 (NE t2) ->
  @len_compat c2 base2 (@mp_len c2 p2) -> 0 < @mp_len c2 base2 -> @len_compat c2 radix2 (@mp_len c2 p2) -> @nlimbs c2 radix2 = @nlimbs c2 p2 ->
  @nlimbs c2 p2 <= zlen s2 -> @nlimbs c2 p2 <= zlen t2 -> @mpval c2 base2 = (a * @mg_radix c2 p2) mod @mpval c2 p2 -> @mpval c2 radix2 = @mg_radix c2 p2 mod @mpval c2 p2 ->
  @mg_carry_ok c2 p2 -> @mg_room c2 (NE s2) p2 -> @mg_room c2 (NE t2) p2 ->
  @mpval c1 p1 = @mpval c2 p2 -> Z.odd (@mpval c1 p1) = true -> 2 < @mpval c1 p1 ->
  both (@ct_prime_test_miller_rabin_mp c1 base1 p1 radix1 s1 t1) (@ct_prime_test_miller_rabin_mp c2 base2 p2 radix2 s2 t2) (fun x y => exists b, x = Ok (@choice c1 b) /\ y = Ok (@choice c2 b)).
Proof.
  intros c1 c2 base1 p1 radix1 s1 t1 base2 p2 radix2 s2 t2 a P1 P2 P3 P4 P5 P6 P7 P8 P9 P10 P11 P12 P13 P14 P15 P16 Q1 Q2 Q3 Q4 Q5 Q6 Q7 Q8 Q9 Q10 Q11 Q12 Q13 Q14 Q15 Q16 E HO HV.
  assert (HO2 : Z.odd (@mpval c2 p2) = true) by (rewrite <- E; exact HO). assert (HV2 : 2 < @mpval c2 p2) by lia.
  destruct (C39_miller_rabin_partial c1 base1 p1 radix1 s1 t1 a P1 P2 P3 P4 P5 HO HV P6 P7 P8 P9 P10 P11 P12 P13 P14 P15 P16) as (x & X1 & X2).
  destruct (C39_miller_rabin_partial c2 base2 p2 radix2 s2 t2 a Q1 Q2 Q3 Q4 Q5 HO2 HV2 Q6 Q7 Q8 Q9 Q10 Q11 Q12 Q13 Q14 Q15 Q16) as (y & Y1 & Y2).
  rewrite <- E in Y2. assert (x = y) by (apply eq_true_iff_eq; tauto). subst y. eexists. eexists. split; [exact X1|]. split; [exact Y1|]. exists x. split; reflexivity.
Qed.
