(** Limb accesses and the buffer routines run in constant time. *)
From Coq Require Import ZArith List Bool Lia.
Require Import Verif.Spec Verif.Monad Verif.Base Verif.ModelLimb Verif.ModelBuf Verif.SpecBuf Verif.BufFacts Verif.Ct Verif.CtLimb.
Import ListNotations.
Open Scope Z_scope.

Section Buf.
Context {c : cfg} {o : obs}.
Hypothesis REL : debug c = false.

Lemma shape_be : forall l l', zlen l' = zlen l -> same_shape (BE l) (BE l').
Proof. intros. split; simpl; auto. Qed.
Lemma shape_le : forall l l', zlen l' = zlen l -> same_shape (LE l) (LE l').
Proof. intros. split; simpl; auto. Qed.
Lemma shape_ne : forall l l', zlen l' = zlen l -> same_shape (NE l) (NE l').
Proof. intros l l' H. split; simpl; auto. rewrite H. auto. Qed.
(** Buffers of the same shape have the same constructor. *)
Lemma shape_inv : forall a b, same_shape a b ->
  match a, b with
  | BE l, BE l' | LE l, LE l' | NE l, NE l' => zlen l' = zlen l
  | _, _ => False
  end.
Proof.
  intros a b H. pose proof H as [K L]. assert (0 < LB) by (unfold LB; destruct (limb64 c); lia).
  destruct a, b; simpl in *; try discriminate; auto.
  apply Z.mul_reg_r with (p := LB); lia.
Qed.

Lemma ct_slice : forall (l l' : list Z) a b a' b',
  zlen l' = zlen l -> a = a' -> b = b' -> ct drel (slice l a b) (slice l' a' b').
Proof.
  intros l l' a b a' b' H <- <-. unfold slice. rewrite H.
  destruct (_ && _) eqn:E; [|apply ct_panic].
  apply ct_ret. unfold drel, DRel_bytes, zlen in *.
  rewrite !firstn_length, !skipn_length. lia.
Qed.
Lemma ct_znth : forall l l' i i', zlen l' = zlen l -> i = i' -> ct drel (znth l i) (znth l' i').
Proof.
  intros l l' i i' H <-. unfold znth. rewrite H. destruct (_ && _); [|apply ct_panic].
  apply ct_ret. exact I.
Qed.
Lemma zlen_splice : forall (l l' s s' : list Z) a a', zlen l' = zlen l -> zlen s' = zlen s -> a = a' ->
  zlen (splice l' a' s') = zlen (splice l a s).
Proof.
  intros l l' s s' a a' H H1 <-. unfold splice, zlen in *.
  rewrite !app_length, !firstn_length, !skipn_length. lia.
Qed.
Lemma ct_zupd : forall l l' i i' v v', zlen l' = zlen l -> i = i' -> ct drel (zupd l i v) (zupd l' i' v').
Proof.
  intros l l' i i' v v' H <-. unfold zupd. rewrite H. destruct (_ && _); [|apply ct_panic].
  apply ct_ret. apply zlen_splice; auto.
Qed.
#[local] Hint Resolve ct_slice ct_znth ct_zupd : ct.
Lemma zlen_le_bytes : forall n v v', zlen (le_bytes n v') = zlen (le_bytes n v).
Proof.
  unfold zlen. induction n as [|n IH]; intros; cbn [le_bytes length]; auto.
  rewrite !Nat2Z.inj_succ, (IH (v / 256) (v' / 256)). auto.
Qed.
Lemma zlen_to_le : forall v v', zlen (to_le_bytes v') = zlen (to_le_bytes v).
Proof. intros. apply zlen_le_bytes. Qed.
Lemma zlen_to_be : forall v v', zlen (to_be_bytes v') = zlen (to_be_bytes v).
Proof. intros. unfold to_be_bytes, zlen. rewrite !rev_length. apply zlen_to_le. Qed.
#[local] Hint Resolve zlen_to_le zlen_to_be zlen_splice : ct.
Ltac fin := repeat match goal with |- zlen (splice _ _ _) = _ => apply zlen_splice
  | |- zlen (to_le_bytes _) = _ => apply zlen_to_le
  | |- zlen (to_be_bytes _) = _ => apply zlen_to_be
  | |- _ = _ => ct_pub end.
Ltac bufs a b H := pose proof (shape_inv a b H); destruct a, b; try tauto;
  (apply ct_tick; [congruence|]).

Lemma rct_load_l : forall a b i j, same_shape a b -> i = j -> ct drel (load_l a i) (load_l b j).
Proof.
  intros a b i j H <-. unfold load_l. bufs a b H.
  - unfold be_mp_load_l, _be_mp_load_l_full, _be_mp_load_l_high_partial. ct_auto.
  - unfold le_mp_load_l, _le_mp_load_l_full, _le_mp_load_l_high_partial. ct_auto.
  - ct_auto.
Qed.
Lemma rct_load_l_full : forall a b i j, same_shape a b -> i = j -> ct drel (load_l_full a i) (load_l_full b j).
Proof.
  intros a b i j H <-. unfold load_l_full. bufs a b H.
  - unfold be_mp_load_l_full, _be_mp_load_l_full. ct_auto.
  - unfold le_mp_load_l_full, _le_mp_load_l_full. ct_auto.
  - ct_auto.
Qed.
Lemma rct_store_l : forall a b i j v w, same_shape a b -> i = j -> ct drel (store_l a i v) (store_l b j w).
Proof.
  intros a b i j v w H <-. unfold store_l. bufs a b H.
  - unfold be_mp_store_l, _be_mp_store_l_full, _be_mp_store_l_high_partial.
    ct_auto; fin; try (apply shape_be; assumption).
  - unfold le_mp_store_l, _le_mp_store_l_full, _le_mp_store_l_high_partial.
    ct_auto; fin; try (apply shape_le; assumption).
  - ct_auto. apply shape_ne; assumption.
Qed.
Lemma rct_store_l_full : forall a b i j v w, same_shape a b -> i = j -> ct drel (store_l_full a i v) (store_l_full b j w).
Proof.
  intros a b i j v w H <-. unfold store_l_full. bufs a b H.
  - unfold be_mp_store_l_full, _be_mp_store_l_full.
    ct_auto; fin; try (apply shape_be; assumption).
  - unfold le_mp_store_l_full, _le_mp_store_l_full.
    ct_auto; fin; try (apply shape_le; assumption).
  - ct_auto. apply shape_ne; assumption.
Qed.
Lemma rct_clear_above : forall a b i j, same_shape a b -> i = j -> ct drel (clear_bytes_above a i) (clear_bytes_above b j).
Proof.
  intros a b i j H <-. unfold clear_bytes_above. bufs a b H.
  - unfold be_mp_clear_bytes_above.
    ct_auto; fin; try (apply shape_be; assumption).
  - unfold le_mp_clear_bytes_above.
    ct_auto; fin; try (apply shape_le; assumption).
  - unfold ne_mp_clear_bytes_above.
    eapply ct_bind with (R := drel); [|intros; ct_norm; apply ct_ret, shape_ne; assumption].
    cbv zeta. apply ct_tick; [apply f_equal; f_equal; ct_pub|]. apply ct_if; [ct_pub|intros; ct_auto|intros _].
    eapply ct_bind with (R := fun p q => zlen (fst q) = zlen (fst p) /\ snd p = snd q).
    + ct_auto; cbn [fst snd]; ct_rel.
    + intros p q R. ct_norm. ct_auto; fin.
Qed.
Lemma rct_clear_below : forall a b i j, same_shape a b -> i = j -> ct drel (clear_bytes_below a i) (clear_bytes_below b j).
Proof.
  intros a b i j H <-. unfold clear_bytes_below. bufs a b H.
  - unfold be_mp_clear_bytes_below.
    ct_auto; fin; try (apply shape_be; assumption).
  - unfold le_mp_clear_bytes_below.
    ct_auto; fin; try (apply shape_le; assumption).
  - unfold ne_mp_clear_bytes_below.
    eapply ct_bind with (R := drel); [|intros; ct_norm; apply ct_ret, shape_ne; assumption].
    eapply ct_bind with (R := eq); [apply ct_refl; reflexivity|intros k _ <-]. cbv zeta.
    eapply ct_bind with (R := fun p q => zlen (fst q) = zlen (fst p) /\ snd p = snd q).
    + ct_auto; cbn [fst snd]; ct_rel.
    + intros p q R. ct_norm. ct_auto; fin.
Qed.
#[local] Hint Resolve rct_load_l rct_load_l_full rct_store_l rct_store_l_full rct_clear_above rct_clear_below : ct.

Lemma rct_test_bit : forall a b i j, same_shape a b -> i = j -> ct drel (test_bit a i) (test_bit b j).
Proof. intros a b i j H <-. unfold test_bit. ct_auto. Qed.
Lemma rct_ffs_mp : forall a b, same_shape a b -> ct drel (ct_find_first_set_bit_mp a) (ct_find_first_set_bit_mp b).
Proof. intros a b H. unfold ct_find_first_set_bit_mp. ct_auto. Qed.
Lemma rct_fls_mp : forall a b, same_shape a b -> ct drel (ct_find_last_set_bit_mp a) (ct_find_last_set_bit_mp b).
Proof. intros a b H. unfold ct_find_last_set_bit_mp. ct_auto. Qed.
Lemma rct_clear_above_cond : forall a b i j k l, same_shape a b -> i = j ->
  ct drel (clear_bytes_above_cond a i k) (clear_bytes_above_cond b j l).
Proof. intros a b i j k l H <-. unfold clear_bytes_above_cond. ct_auto. Qed.
#[local] Hint Resolve rct_clear_above_cond : ct.
Lemma rct_copy_from : forall a b d e, same_shape a b -> same_shape d e ->
  ct drel (copy_from a d) (copy_from b e).
Proof. intros a b d e H H1. unfold copy_from. ct_auto. Qed.
Lemma rct_copy_from_cond : forall a b d e k l, same_shape a b -> same_shape d e ->
  ct drel (copy_from_cond a d k) (copy_from_cond b e l).
Proof. intros a b d e k l H H1. unfold copy_from_cond. ct_auto. Qed.
Lemma rct_set_bit_to : forall a b i j v w, same_shape a b -> i = j ->
  ct drel (set_bit_to a i v) (set_bit_to b j w).
Proof. intros a b i j v w H <-. unfold set_bit_to. ct_auto. Qed.
Lemma rct_set_to_native : forall sz a b v w, same_shape a b ->
  ct drel (set_to_native sz a v) (set_to_native sz b w).
Proof. intros sz a b v w H. unfold set_to_native. ct_auto. Qed.
Lemma rct_clear_bits_above : forall a b i j, same_shape a b ->
  ct drel (ct_clear_bits_above_mp a i) (ct_clear_bits_above_mp b j).
Proof. intros a b i j H. unfold ct_clear_bits_above_mp. ct_auto. Qed.
Lemma rct_clear_bits_below : forall a b i j, same_shape a b ->
  ct drel (ct_clear_bits_below_mp a i) (ct_clear_bits_below_mp b j).
Proof. intros a b i j H. unfold ct_clear_bits_below_mp. ct_auto. Qed.
Lemma rct_clear_bits_above_pub : forall a b i j, same_shape a b -> i = j ->
  ct drel (clear_bits_above_mp a i) (clear_bits_above_mp b j).
Proof. intros a b i j H <-. unfold clear_bits_above_mp. ct_auto. Qed.
Lemma rct_clear_bits_below_pub : forall a b i j, same_shape a b -> i = j ->
  ct drel (clear_bits_below_mp a i) (clear_bits_below_mp b j).
Proof. intros a b i j H <-. unfold clear_bits_below_mp. ct_auto. Qed.
Lemma rct_swap_cond : forall a b d e k l, same_shape a b -> same_shape d e ->
  ct drel (ct_swap_cond_mp a d k) (ct_swap_cond_mp b e l).
Proof. intros a b d e k l H H1. unfold ct_swap_cond_mp. ct_auto. Qed.
Lemma rct_take : forall a b n m, same_shape a b -> n = m -> ct drel (mp_take a n) (mp_take b m).
Proof.
  intros a b n m H <-. pose proof (shape_inv a b H). unfold mp_take.
  destruct a, b; try tauto; ct_auto;
    first [apply shape_be|apply shape_le|apply shape_ne]; assumption.
Qed.
Lemma rct_shrink_priv : forall a b n m, same_shape a b -> n = m -> ct drel (mp_shrink_to_priv a n) (mp_shrink_to_priv b m).
Proof.
  intros a b n m H <-. pose proof (shape_inv a b H). unfold mp_shrink_to_priv.
  destruct a, b; try tauto; ct_auto;
    first [apply shape_be|apply shape_le|apply shape_ne]; assumption.
Qed.
#[local] Hint Resolve rct_shrink_priv : ct.
Lemma rct_shrink_to : forall a b n m, same_shape a b -> n = m -> ct drel (mp_shrink_to a n) (mp_shrink_to b m).
Proof. intros a b n m H <-. unfold mp_shrink_to. ct_auto. Qed.
Lemma shape_unshrink : forall a b s t, same_shape a b -> same_shape s t ->
  same_shape (mp_unshrink a s) (mp_unshrink b t).
Proof.
  intros a b s t H H1. pose proof (shape_inv a b H). pose proof (shape_inv s t H1).
  destruct a, b; try tauto; destruct s, t; try tauto; cbn [mp_unshrink];
    first [assumption|apply shape_be|apply shape_le|apply shape_ne];
    unfold zlen in *; rewrite !app_length, ?firstn_length, ?skipn_length; lia.
Qed.
End Buf.
#[global] Hint Resolve ct_slice ct_znth ct_zupd zlen_splice
  rct_load_l rct_load_l_full rct_store_l rct_store_l_full rct_clear_above rct_clear_below
  rct_test_bit rct_ffs_mp rct_fls_mp rct_clear_above_cond rct_copy_from rct_copy_from_cond
  rct_set_bit_to rct_set_to_native rct_clear_bits_above rct_clear_bits_below
  rct_clear_bits_above_pub rct_clear_bits_below_pub rct_swap_cond rct_take rct_shrink_priv
  rct_shrink_to shape_unshrink : ct.
