(** Constant time, from the relational judgement to the statements on traces. *)
From Coq Require Import ZArith List Bool Lia.
Require Import Verif.Spec Verif.Monad Verif.ModelLimb Verif.ModelBuf Verif.SpecBuf Verif.BufFacts Verif.LimbFacts2 Verif.BufFacts2
  Verif.ModelCmp Verif.ModelAdd Verif.ModelShift Verif.ModelMul Verif.ModelDiv Verif.SpecDiv Verif.ModelMont Verif.SpecMont Verif.Wp
  Verif.LDivFacts Verif.DivFacts Verif.DivFacts2 Verif.DivFacts8 Verif.DivProofs Verif.MontProofs
  Verif.SpecCt Verif.Ct Verif.CtLimb Verif.CtBuf Verif.CtArith Verif.CtDiv Verif.CtMont Verif.CtShift.
Import ListNotations.
Open Scope Z_scope.

Lemma ct_agree : forall A (R : A -> A -> Prop) m1 m2, @ct obs_all A R m1 m2 -> agree m1 m2.
Proof. intros. unfold agree. eapply ct_all; eauto. Qed.


Definition obs_ops : obs := {| ob := op_of; strict := false |}.
Lemma ct_ops : forall A (R : A -> A -> Prop) m1 m2 a b, @ct obs_ops A R m1 m2 -> returns m1 a -> returns m2 b -> operations m1 = operations m2.
Proof.
  intros A R [t1 r1] [t2 r2] a b H H1 H2. unfold ct, returns in *. cbn [fst snd] in *. subst. destruct H. auto.
Qed.
Section Top.
Context {c : cfg}.
Hypothesis REL : debug c = false.

Lemma q_limbs_room : forall q len n, q_limbs_suffice q len n -> q_room q (ct_mp_nlimbs (len + 1 - n)).
Proof.
  intros [q|] len n H; [|exact I]. unfold q_limbs_suffice, q_room in *. unfold ct_mp_nlimbs.
  pose proof LB_pos. apply Z.lt_succ_r, Z.div_lt_upper_bound; lia.
Qed.
Lemma fls_byte_eq : forall d d' v v' n, ld_ok d v -> ld_ok d' v' -> byte_len v n -> byte_len v' n ->
  snd (ct_find_last_set_byte_l (ld_v d)) = snd (ct_find_last_set_byte_l (ld_v d')).
Proof.
  intros d d' v v' n (H1 & E1 & _) (H2 & E2 & _) [N1 N2] [_ N3]. rewrite E1, E2.
  assert (X : forall v, 0 < v < B -> 256 ^ (n - 1) <= v < 256 ^ n -> snd (ct_find_last_set_byte_l v) = Some n).
  { intros x Hx Hn. assert (Y : wp (ct_find_last_set_byte_l x) (fun r => r = n)).
    { apply wp_fls_byte; [split; lia|].
      assert ((nbits x + 7) / 8 <= n) by (apply nbytes_le_iff; lia).
      destruct (Z.le_gt_cases ((nbits x + 7) / 8) (n - 1)) as [G|G]; [|lia].
      apply nbytes_le_iff in G; lia. }
    apply wp_returns in Y. destruct Y as (r & R & ->). exact R. }
  rewrite !X; auto.
Qed.
Lemma new_dv : forall v dec d n, mp_ok v -> 0 <= dec_val dec < B -> returns (mp_divisor_new v dec) (Ok d) ->
  byte_len (mpval v - dec_val dec) n -> dv_v d = v /\ dv_len d = n.
Proof.
  intros v dec d n Hv Hd HR HL. split.
  - assert (P : 0 < mpval v - dec_val dec).
    { destruct HL as [N1 N2]. pose proof (Z.pow_pos_nonneg 256 (n - 1)). lia. }
    assert (X : wp (mp_divisor_new v dec) (fun r => r = Ok d -> dv_v d = v)).
    { apply wp_divisor_new; auto.
      + intros -> E. cbn in P. lia.
      + intros. unfold dec_val in P. lia.
      + intros _ d' H1 H2 H3 E. injection E as ->. auto. }
    exact (returns_wp _ _ _ _ X HR eq_refl).
  - destruct (divisor_ok d (mpval v - dec_val dec)) as [H1 H2]; [exists v, dec; auto|].
    eapply divisor_len; eauto.
Qed.
(** The divisors made from two buffers of the same format, for integers of the same number of bytes. *)
Lemma divisors_shape : forall v v' dec dec' d d' n, mp_ok v -> mp_ok v' -> same_shape v v' ->
  0 <= dec_val dec < B -> 0 <= dec_val dec' < B ->
  returns (mp_divisor_new v dec) (Ok d) -> returns (mp_divisor_new v' dec') (Ok d') ->
  byte_len (mpval v - dec_val dec) n -> byte_len (mpval v' - dec_val dec') n -> dv_shape d d' /\ dv_len d = n.
Proof.
  intros v v' dec dec' d d' n H1 H2 H3 H4 H5 H6 H7 H8 H9.
  destruct (new_dv v dec d n) as [E1 E2]; auto. destruct (new_dv v' dec' d' n) as [E3 E4]; auto.
  unfold dv_shape. rewrite E1, E2, E3, E4. auto.
Qed.
Lemma same_byte_len_blen : forall a b, mp_ok a -> mp_ok b -> same_byte_len (mpval a) (mpval b) -> same_blen a b.
Proof.
  intros a b Ha Hb H. unfold same_blen.
  pose proof (mpval_nonneg a Ha) as A0. pose proof (mpval_nonneg b Hb) as B0.
  pose proof (nbits_nonneg (mpval a)) as NA. pose proof (nbits_nonneg (mpval b)) as NB.
  set (x := (nbits (mpval a) + 7) / 8). set (y := (nbits (mpval b) + 7) / 8).
  assert (0 <= x) by (apply Z.div_pos; lia). assert (0 <= y) by (apply Z.div_pos; lia).
  assert (x <= y).
  { apply nbytes_le_iff; auto. apply H; auto. apply nbytes_le_iff; auto. unfold y. lia. }
  assert (y <= x).
  { apply nbytes_le_iff; auto. apply H; auto. apply nbytes_le_iff; auto. unfold x. lia. }
  lia.
Qed.

Lemma okm_trace : forall A E T (m : M (result A E * T)) a t, returns m (Ok a, t) -> trace (okm m) = trace m /\ returns (okm m) t.
Proof.
  intros A E T [tr r] a t H. unfold returns in H. cbn [snd] in H. subst. unfold okm, bind, unwrap, ret, trace, returns. cbn.
  rewrite app_nil_r. auto.
Qed.
Lemma okd_trace : forall A E (m : M (result A E)) a, returns m (Ok a) -> trace (okd m) = trace m /\ returns (okd m) a.
Proof.
  intros A E [tr r] a H. unfold returns in H. cbn [snd] in H. subst. unfold okd, bind, ret, trace, returns. cbn.
  rewrite app_nil_r. auto.
Qed.
Lemma ok3_trace : forall A E T X (m : M (result A E * T * X)) a t x, returns m (Ok a, t, x) -> trace (ok3 m) = trace m /\ returns (ok3 m) (t, x).
Proof.
  intros A E T X [tr r] a t x H. unfold returns in H. cbn [snd] in H. subst. unfold ok3, bind, ret, trace, returns. cbn.
  rewrite app_nil_r. auto.
Qed.
Lemma ok4_trace : forall A E T X Y (m : M (result A E * T * X * Y)) a t x y, returns m (Ok a, t, x, y) -> trace (ok4 m) = trace m /\ returns (ok4 m) (t, x, y).
Proof.
  intros A E T X Y [tr r] a t x y H. unfold returns in H. cbn [snd] in H. subst. unfold ok4, bind, ret, trace, returns. cbn.
  rewrite app_nil_r. auto.
Qed.
Lemma ct_trace_m : forall A E T R (m m' : M (result A E * T)) a t a' t', @ct obs_ret _ R (okm m) (okm m') ->
  returns m (Ok a, t) -> returns m' (Ok a', t') -> trace m = trace m'.
Proof.
  intros A E T R m m' a t a' t' H H1 H2. apply okm_trace in H1, H2. destruct H1 as [<- H1], H2 as [<- H2]. eapply ct_all_ret; eauto.
Qed.
Lemma ct_trace_d : forall A E R (m m' : M (result A E)) a a', @ct obs_ret _ R (okd m) (okd m') ->
  returns m (Ok a) -> returns m' (Ok a') -> trace m = trace m'.
Proof.
  intros A E R m m' a a' H H1 H2. apply okd_trace in H1, H2. destruct H1 as [<- H1], H2 as [<- H2]. eapply ct_all_ret; eauto.
Qed.
Lemma ct_trace_3 : forall A E T X R (m m' : M (result A E * T * X)) a t x a' t' x', @ct obs_ret _ R (ok3 m) (ok3 m') ->
  returns m (Ok a, t, x) -> returns m' (Ok a', t', x') -> trace m = trace m'.
Proof.
  intros A E T X R m m' a t x a' t' x' H H1 H2. apply ok3_trace in H1, H2. destruct H1 as [<- H1], H2 as [<- H2]. eapply ct_all_ret; eauto.
Qed.
Lemma ct_trace_4 : forall A E T X Y R (m m' : M (result A E * T * X * Y)) a t x y a' t' x' y', @ct obs_ret _ R (ok4 m) (ok4 m') ->
  returns m (Ok a, t, x, y) -> returns m' (Ok a', t', x', y') -> trace m = trace m'.
Proof.
  intros A E T X Y R m m' a t x y a' t' x' y' H H1 H2. apply ok4_trace in H1, H2. destruct H1 as [<- H1], H2 as [<- H2]. eapply ct_all_ret; eauto.
Qed.
End Top.
Ltac ctr lem :=
  match goal with
  | X : returns ?m _, Y : returns ?m' _ |- _ ?m = _ ?m' => eapply lem; [|exact X|exact Y]
  end.
(** ** The statements *)

Lemma ct_limb : forall (c : cfg), debug c = false ->
  (forall a a', agree (lc_new a) (lc_new a')) /\
  (forall a a', agree (ct_is_nonzero_l a) (ct_is_nonzero_l a')) /\
  (forall a a', agree (ct_is_zero_l a) (ct_is_zero_l a')) /\
  (forall a a', agree (ct_find_last_set_bit_l a) (ct_find_last_set_bit_l a')) /\
  (forall a a', agree (ct_find_last_set_byte_l a) (ct_find_last_set_byte_l a')) /\
  (forall a a', agree (ct_find_first_set_bit_l a) (ct_find_first_set_bit_l a')) /\
  (forall a a', agree (ct_lsb_mask_l a) (ct_lsb_mask_l a')) /\
  (forall a a', agree (ct_l_to_hls a) (ct_l_to_hls a')) /\
  (forall a a', agree (ct_inv_mod_l a) (ct_inv_mod_l a')) /\
  (forall a b a' b', agree (ct_eq_l_l a b) (ct_eq_l_l a' b')) /\
  (forall a b a' b', agree (ct_neq_l_l a b) (ct_neq_l_l a' b')) /\
  (forall a b a' b', agree (ct_lt_l_l a b) (ct_lt_l_l a' b')) /\
  (forall a b a' b', agree (ct_leq_l_l a b) (ct_leq_l_l a' b')) /\
  (forall a b a' b', agree (ct_gt_l_l a b) (ct_gt_l_l a' b')) /\
  (forall a b a' b', agree (ct_geq_l_l a b) (ct_geq_l_l a' b')) /\
  (forall a b a' b', agree (ct_add_l_l a b) (ct_add_l_l a' b')) /\
  (forall a b a' b', agree (ct_sub_l_l a b) (ct_sub_l_l a' b')) /\
  (forall a b a' b', agree (ct_mul_l_l a b) (ct_mul_l_l a' b')) /\
  (forall a b a' b', agree (ct_arithmetic_rshift_l a b) (ct_arithmetic_rshift_l a' b')) /\
  (forall a b a' b', agree (ct_eq_usize_usize a b) (ct_eq_usize_usize a' b')) /\
  (forall a b a' b', agree (ct_lt_usize_usize a b) (ct_lt_usize_usize a' b')) /\
  (forall a b a' b', agree (ct_leq_usize_usize a b) (ct_leq_usize_usize a' b')) /\
  (forall a b a' b', agree (ct_gt_usize_usize a b) (ct_gt_usize_usize a' b')) /\
  (forall a b a' b', agree (ct_geq_usize_usize a b) (ct_geq_usize_usize a' b')) /\
  (forall a b d a' b' d', agree (ct_add_l_l_c a b d) (ct_add_l_l_c a' b' d')) /\
  (forall a b d a' b' d', agree (ct_sub_l_l_b a b d) (ct_sub_l_l_b a' b' d')) /\
  (forall a b d e a' b' d' e', agree (ct_mul_add_l_l_l_c a b d e) (ct_mul_add_l_l_l_c a' b' d' e')) /\
  (forall a b d e a' b' d' e', agree (ct_mul_sub_l_l_l_b a b d e) (ct_mul_sub_l_l_l_b a' b' d' e')) /\
  (forall d u d' u', agree (ct_l_divisor_do_div d u) (ct_l_divisor_do_div d' u')) /\
  (forall v v' d d', returns (ct_l_divisor_new v) (Ok d) -> returns (ct_l_divisor_new v') (Ok d') ->
    trace (ct_l_divisor_new v) = trace (ct_l_divisor_new v')).
Proof.
  intros c REL. repeat apply conj; intros;
    first [eapply ct_agree; solve [eauto 3 with ct | apply rct_lc_new; auto] | ctr ct_trace_d; apply rct_l_divisor_new; auto].
Qed.

Lemma ct_buffer : forall (c : cfg), debug c = false ->
  (forall b b' i, same_shape b b' -> agree (load_l b i) (load_l b' i)) /\
  (forall b b' i v v', same_shape b b' -> agree (store_l b i v) (store_l b' i v')) /\
  (forall b b' i, same_shape b b' -> agree (clear_bytes_above b i) (clear_bytes_above b' i)) /\
  (forall b b' i, same_shape b b' -> agree (clear_bytes_below b i) (clear_bytes_below b' i)) /\
  (forall b b' i k k', same_shape b b' -> agree (clear_bytes_above_cond b i k) (clear_bytes_above_cond b' i k')) /\
  (forall b b' i i', same_shape b b' -> agree (ct_clear_bits_above_mp b i) (ct_clear_bits_above_mp b' i')) /\
  (forall b b' i i', same_shape b b' -> agree (ct_clear_bits_below_mp b i) (ct_clear_bits_below_mp b' i')) /\
  (forall b b' i, same_shape b b' -> agree (test_bit b i) (test_bit b' i)) /\
  (forall b b' i v v', same_shape b b' -> agree (set_bit_to b i v) (set_bit_to b' i v')) /\
  (forall b b' sz v v', same_shape b b' -> agree (set_to_native sz b v) (set_to_native sz b' v')) /\
  (forall b b', same_shape b b' -> agree (ct_find_first_set_bit_mp b) (ct_find_first_set_bit_mp b')) /\
  (forall b b', same_shape b b' -> agree (ct_find_last_set_bit_mp b) (ct_find_last_set_bit_mp b')) /\
  (forall b b' s s', same_shape b b' -> same_shape s s' -> agree (copy_from b s) (copy_from b' s')) /\
  (forall b b' s s' k k', same_shape b b' -> same_shape s s' -> agree (copy_from_cond b s k) (copy_from_cond b' s' k')) /\
  (forall b b' s s' k k', same_shape b b' -> same_shape s s' -> agree (ct_swap_cond_mp b s k) (ct_swap_cond_mp b' s' k')).
Proof.
  intros c REL. repeat apply conj; intros; eapply ct_agree; eauto 3 with ct.
Qed.

Lemma ct_compare : forall (c : cfg), debug c = false ->
  (forall a b a' b', same_shape a a' -> same_shape b b' -> agree (ct_eq_mp_mp a b) (ct_eq_mp_mp a' b')) /\
  (forall a b a' b', same_shape a a' -> same_shape b b' -> agree (ct_neq_mp_mp a b) (ct_neq_mp_mp a' b')) /\
  (forall a b a' b', same_shape a a' -> same_shape b b' -> agree (ct_lt_mp_mp a b) (ct_lt_mp_mp a' b')) /\
  (forall a b a' b', same_shape a a' -> same_shape b b' -> agree (ct_leq_mp_mp a b) (ct_leq_mp_mp a' b')) /\
  (forall a b a' b', same_shape a a' -> same_shape b b' -> agree (ct_gt_mp_mp a b) (ct_gt_mp_mp a' b')) /\
  (forall a b a' b', same_shape a a' -> same_shape b b' -> agree (ct_geq_mp_mp a b) (ct_geq_mp_mp a' b')) /\
  (forall a a', same_shape a a' -> agree (ct_is_zero_mp a) (ct_is_zero_mp a')) /\
  (forall a a', same_shape a a' -> agree (ct_is_one_mp a) (ct_is_one_mp a')) /\
  (forall a a' l l', same_shape a a' -> agree (ct_leq_mp_l a l) (ct_leq_mp_l a' l')).
Proof.
  intros c REL. repeat apply conj; intros; eapply ct_agree; eauto 3 with ct.
Qed.

Lemma ct_add_sub : forall (c : cfg), debug c = false ->
  (forall a b a' b', same_shape a a' -> same_shape b b' -> agree (ct_add_mp_mp a b) (ct_add_mp_mp a' b')) /\
  (forall a b a' b', same_shape a a' -> same_shape b b' -> agree (ct_sub_mp_mp a b) (ct_sub_mp_mp a' b')) /\
  (forall a b a' b' k k', same_shape a a' -> same_shape b b' -> agree (ct_add_cond_mp_mp a b k) (ct_add_cond_mp_mp a' b' k')) /\
  (forall a b a' b' k k', same_shape a a' -> same_shape b b' -> agree (ct_sub_cond_mp_mp a b k) (ct_sub_cond_mp_mp a' b' k')) /\
  (forall a a' l l', same_shape a a' -> agree (ct_add_mp_l a l) (ct_add_mp_l a' l')) /\
  (forall a a' l l', same_shape a a' -> agree (ct_sub_mp_l a l) (ct_sub_mp_l a' l')) /\
  (forall a a', same_shape a a' -> agree (ct_negate_mp a) (ct_negate_mp a')) /\
  (forall a a' k k', same_shape a a' -> agree (ct_negate_cond_mp a k) (ct_negate_cond_mp a' k')).
Proof.
  intros c REL. repeat apply conj; intros; eapply ct_agree; eauto 3 with ct.
Qed.

Lemma ct_mod_arith : forall (c : cfg), debug c = false ->
  (forall a b n a' b' n', same_shape a a' -> same_shape b b' -> same_shape n n' -> mp_ok a -> mp_ok n -> mp_ok n' ->
    (len_compat n (mp_len a) <-> len_compat n' (mp_len a')) -> agree (ct_add_mod_mp_mp a b n) (ct_add_mod_mp_mp a' b' n')) /\
  (forall a b n a' b' n', same_shape a a' -> same_shape b b' -> same_shape n n' -> mp_ok a -> mp_ok n -> mp_ok n' ->
    (len_compat n (mp_len a) <-> len_compat n' (mp_len a')) -> agree (ct_sub_mod_mp_mp a b n) (ct_sub_mod_mp_mp a' b' n')) /\
  (forall a n a' n', same_shape a a' -> same_shape n n' -> mp_ok a -> mp_ok n -> mp_ok n' ->
    (len_compat n (mp_len a) <-> len_compat n' (mp_len a')) -> agree (ct_negate_mod_mp a n) (ct_negate_mod_mp a' n')).
Proof.
  intros c REL. split; [|split].
  - intros a b n a' b' n' H1 H2 H3 H4 H5 H6 H7. rewrite (shape_len _ _ H1) in H7. eapply ct_agree. apply rct_add_mod; auto.
  - intros a b n a' b' n' H1 H2 H3 H4 H5 H6 H7. rewrite (shape_len _ _ H1) in H7. eapply ct_agree. apply rct_sub_mod; auto.
  - intros a n a' n' H1 H2 H3 H4 H5 H6. rewrite (shape_len _ _ H1) in H6. eapply ct_agree. apply rct_negate_mod; auto.
Qed.

Lemma ct_mul_shift : forall (c : cfg), debug c = false ->
  (forall a n b a' b', same_shape a a' -> same_shape b b' -> agree (ct_mul_trunc_mp_mp a n b) (ct_mul_trunc_mp_mp a' n b')) /\
  (forall a n b a' b' k k', same_shape a a' -> same_shape b b' -> agree (ct_mul_trunc_cond_mp_mp a n b k) (ct_mul_trunc_cond_mp_mp a' n b' k')) /\
  (forall a n a', same_shape a a' -> agree (ct_square_trunc_mp a n) (ct_square_trunc_mp a' n)) /\
  (forall a n a' l l', same_shape a a' -> agree (ct_mul_trunc_mp_l a n l) (ct_mul_trunc_mp_l a' n l')) /\
  (forall a a' s, same_shape a a' -> agree (ct_lshift_mp a s) (ct_lshift_mp a' s)) /\
  (forall a a' s, same_shape a a' -> agree (ct_rshift_mp a s) (ct_rshift_mp a' s)).
Proof.
  intros c REL. repeat apply conj; intros; eapply ct_agree; eauto 3 with ct.
Qed.

Lemma virtual_len_val : forall (c : cfg) k len, 0 <= k -> pow2_exp_ok k -> returns (virtual_pow2_len k) len -> len = k / 8 + 1.
Proof.
  intros c k len Hk Hb H. assert (X : wp (virtual_pow2_len k) (fun x => x = k / 8 + 1)) by (apply wp_virtual_len; auto).
  apply wp_returns in X. destruct X as (x & R & ->). unfold returns in *. congruence.
Qed.
Lemma ct_divide : forall (c : cfg), debug c = false -> forall v v' dec dec' d d' n, mp_ok v -> mp_ok v' -> same_shape v v' -> 0 <= dec_val dec < B -> 0 <= dec_val dec' < B ->
  returns (mp_divisor_new v dec) (Ok d) -> returns (mp_divisor_new v' dec') (Ok d') ->
  byte_len (mpval v - dec_val dec) n -> byte_len (mpval v' - dec_val dec') n ->
  (forall uh ul q uh' ul' q', same_opt uh uh' -> same_shape ul ul' -> same_opt q q' -> q_limbs_suffice q (mp_len ul + uhlen uh) n ->
    agree (ct_div_mp_mp uh ul d q) (ct_div_mp_mp uh' ul' d' q')) /\
  (forall uh ul uh' ul', same_opt uh uh' -> same_shape ul ul' -> agree (ct_mod_mp_mp uh ul d) (ct_mod_mp_mp uh' ul' d')) /\
  (forall k r q r' q', 0 <= k -> pow2_exp_ok k -> same_shape r r' -> same_opt q q' -> q_limbs_suffice q (k / 8 + 1) n ->
    agree (ct_div_pow2_mp k r d q) (ct_div_pow2_mp k r' d' q')) /\
  (forall k r r', same_shape r r' -> agree (ct_mod_pow2_mp k r d) (ct_mod_pow2_mp k r' d')) /\
  (forall u ul sl q u' q', same_shape u u' -> 0 <= ul <= mp_len u -> 0 <= sl -> ul + sl + LB < 2 ^ UW -> same_opt q q' -> q_limbs_suffice q (ul + sl) n ->
    agree (ct_div_lshifted_mp_mp u ul sl d q) (ct_div_lshifted_mp_mp u' ul sl d' q')) /\
  (forall u ul sl u', same_shape u u' -> 0 <= ul <= mp_len u -> 0 <= sl ->
    agree (ct_mod_lshifted_mp_mp u ul sl d) (ct_mod_lshifted_mp_mp u' ul sl d')).
Proof.
  intros c REL v v' dec dec' d d' n H1 H2 H3 H4 H5 H6 H7 H8 H9.
  destruct (divisors_shape v v' dec dec' d d' n H1 H2 H3 H4 H5 H6 H7 H8 H9) as [D1 D2].
  repeat apply conj; intros; eapply ct_agree; repeat match goal with H : q_limbs_suffice _ _ _ |- _ => apply q_limbs_room in H; rewrite <- D2 in H end.
  - apply rct_div; auto.
  - apply rct_mod; auto.
  - apply rct_div_pow2; auto. intros len L. rewrite (virtual_len_val c k len); auto.
  - apply rct_mod_pow2; auto.
  - apply rct_div_lsh; auto; try lia. right. split; [rewrite D2; exact (proj1 H8)|auto].
  - apply rct_mod_lsh; auto.
Qed.

Lemma ct_divide_limb : forall (c : cfg), debug c = false -> forall v v' d d', limb_divisor_for d v -> limb_divisor_for d' v' ->
  (forall u u', same_shape u u' -> agree (ct_mod_mp_l u d) (ct_mod_mp_l u' d')) /\
  (forall u u', same_shape u u' -> agree (ct_div_mp_l u d None) (ct_div_mp_l u' d' None)) /\
  (forall u q u' q' n, same_shape u u' -> same_shape q q' -> byte_len v n -> byte_len v' n -> agree (ct_div_mp_l u d (Some q)) (ct_div_mp_l u' d' (Some q'))).
Proof.
  intros c REL v v' d d' H1 H2. apply ldivisor_ok in H1, H2. repeat apply conj; intros; eapply ct_agree.
  - apply rct_mod_l; auto.
  - apply rct_div_l; auto. exact I.
  - apply rct_div_l; auto. right. eapply fls_byte_eq; eauto.
Qed.

Lemma ct_divisor_new : forall (c : cfg), debug c = false -> forall v v' d d', mp_ok v -> mp_ok v' -> same_shape v v' -> same_byte_len (mpval v) (mpval v') ->
  returns (mp_divisor_new v None) (Ok d) -> returns (mp_divisor_new v' None) (Ok d') ->
  trace (mp_divisor_new v None) = trace (mp_divisor_new v' None).
Proof.
  intros c REL v v' d d' H1 H2 H3 H4 H5 H6. ctr ct_trace_d. apply rct_divisor_new; auto. apply same_byte_len_blen; auto.
Qed.

Lemma ct_montgomery : forall (c : cfg), debug c = false ->
  (forall t t' n n' g g' a a', same_shape t t' -> same_shape n n' ->
    returns (ct_montgomery_redc_mp t n g) (Ok tt, a) -> returns (ct_montgomery_redc_mp t' n' g') (Ok tt, a') ->
    trace (ct_montgomery_redc_mp t n g) = trace (ct_montgomery_redc_mp t' n' g')) /\
  (forall r r' x x' y y' n n' g g' a a', same_shape r r' -> same_shape x x' -> same_shape y y' -> same_shape n n' ->
    returns (ct_montgomery_mul_mod_mp_mp r x y n g) (Ok tt, a) -> returns (ct_montgomery_mul_mod_mp_mp r' x' y' n' g') (Ok tt, a') ->
    trace (ct_montgomery_mul_mod_mp_mp r x y n g) = trace (ct_montgomery_mul_mod_mp_mp r' x' y' n' g')) /\
  (forall r r' t t' n n' g g' x x' a a', same_shape r r' -> same_shape t t' -> same_shape n n' -> same_shape x x' ->
    returns (ct_to_montgomery_form_mp r t n g x) (Ok tt, a) -> returns (ct_to_montgomery_form_mp r' t' n' g' x') (Ok tt, a') ->
    trace (ct_to_montgomery_form_mp r t n g x) = trace (ct_to_montgomery_form_mp r' t' n' g' x')) /\
  (forall t t' n n' a a', same_shape t t' -> same_shape n n' -> mp_ok n -> mp_ok n' -> same_byte_len (mpval n) (mpval n') ->
    returns (ct_to_montgomery_form_direct_mp t n) (Ok tt, a) -> returns (ct_to_montgomery_form_direct_mp t' n') (Ok tt, a') ->
    trace (ct_to_montgomery_form_direct_mp t n) = trace (ct_to_montgomery_form_direct_mp t' n')) /\
  (forall r r' n n' a a', same_shape r r' -> same_shape n n' -> mp_ok n -> mp_ok n' -> same_byte_len (mpval n) (mpval n') ->
    returns (ct_montgomery_radix2_mod_n_mp r n) (Ok tt, a) -> returns (ct_montgomery_radix2_mod_n_mp r' n') (Ok tt, a') ->
    trace (ct_montgomery_radix2_mod_n_mp r n) = trace (ct_montgomery_radix2_mod_n_mp r' n')) /\
  (forall n n' g g', same_shape n n' ->
    returns (ct_montgomery_neg_n0_inv_mod_l_mp n) (Ok g) -> returns (ct_montgomery_neg_n0_inv_mod_l_mp n') (Ok g') ->
    trace (ct_montgomery_neg_n0_inv_mod_l_mp n) = trace (ct_montgomery_neg_n0_inv_mod_l_mp n')).
Proof.
  intros c REL. repeat apply conj; intros.
  - ctr ct_trace_m. apply rct_redc; auto.
  - ctr ct_trace_m. apply rct_mg_mul; auto.
  - ctr ct_trace_m. apply rct_to_form; auto.
  - ctr ct_trace_m. apply rct_to_form_direct; auto. apply same_byte_len_blen; auto.
  - ctr ct_trace_m. apply rct_radix2; auto. apply same_byte_len_blen; auto.
  - ctr ct_trace_d. apply rct_neg_inv; auto.
Qed.

Lemma ct_exp : forall (c : cfg), debug c = false ->
  (forall r r' a a' n n' g g' x x' e e' k s s' t u y t' u' y', same_shape r r' -> same_shape a a' -> same_shape n n' -> same_shape x x' ->
    same_shape e e' -> zlen s = zlen s' ->
    returns (ct_montgomery_exp_mod_odd_mp_mp r a n g x e k s) (Ok t, u, y) -> returns (ct_montgomery_exp_mod_odd_mp_mp r' a' n' g' x' e' k s') (Ok t', u', y') ->
    trace (ct_montgomery_exp_mod_odd_mp_mp r a n g x e k s) = trace (ct_montgomery_exp_mod_odd_mp_mp r' a' n' g' x' e' k s')) /\
  (forall r r' a a' n n' e e' k s s' t u x y t' u' x' y', same_shape r r' -> same_shape a a' -> same_shape n n' -> mp_ok n -> mp_ok n' ->
    same_byte_len (mpval n) (mpval n') -> same_shape e e' -> zlen s = zlen s' ->
    returns (ct_exp_mod_odd_mp_mp r a n e k s) (Ok t, u, x, y) -> returns (ct_exp_mod_odd_mp_mp r' a' n' e' k s') (Ok t', u', x', y') ->
    trace (ct_exp_mod_odd_mp_mp r a n e k s) = trace (ct_exp_mod_odd_mp_mp r' a' n' e' k s')).
Proof.
  intros c REL. repeat apply conj; intros.
  - ctr ct_trace_3. apply rct_mexp; auto.
  - ctr ct_trace_4. apply rct_exp; auto. apply same_byte_len_blen; auto.
Qed.

Lemma ct_shift_operations : forall (c : cfg), debug c = false -> forall l l' s s', zlen l = zlen l' ->
  (forall x x', returns (ct_lshift_mp (NE l) s) x -> returns (ct_lshift_mp (NE l') s') x' ->
    operations (ct_lshift_mp (NE l) s) = operations (ct_lshift_mp (NE l') s')) /\
  (forall x x', returns (ct_rshift_mp (NE l) s) x -> returns (ct_rshift_mp (NE l') s') x' ->
    operations (ct_rshift_mp (NE l) s) = operations (ct_rshift_mp (NE l') s')).
Proof.
  intros c REL l l' s s' H. assert (N : ne_pair (NE l) (NE l')) by (split; [apply shape_ne; auto|reflexivity]).
  split; intros x x' H1 H2; ctr ct_ops; [apply rct_lshift_any|apply rct_rshift_any]; auto.
Qed.
