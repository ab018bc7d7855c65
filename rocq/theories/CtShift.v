(** Shifts by a secret distance on buffers of native limbs: the sequence of
    branches and the number of memory accesses do not depend on the distance, only
    the indices of the limbs loaded do. *)
From Coq Require Import ZArith List Bool Lia.
Require Import Verif.Spec Verif.Monad Verif.ModelLimb Verif.ModelBuf Verif.SpecBuf Verif.BufFacts
  Verif.ModelShift Verif.Ct Verif.CtLimb Verif.CtBuf Verif.CtArith.
Import ListNotations.
Open Scope Z_scope.

Section Shift.
Context {c : cfg} {o : obs}.
Hypothesis REL : debug c = false.
Hypothesis PART : strict = false.
Hypothesis NOIDX : forall i j, ob (ELoad i) = ob (ELoad j).

Definition ne_pair (a b : mp) : Prop := same_shape a b /\ kind_of a = KNE.
Lemma ne_pair_inv : forall a b, ne_pair a b -> exists l l', a = NE l /\ b = NE l' /\ zlen l' = zlen l.
Proof.
  intros a b [H K]. pose proof (shape_inv a b H). destruct a, b; try discriminate; try tauto. eauto.
Qed.
Lemma ct_any : forall (m1 m2 : M Z), fst m1 = [] -> fst m2 = [] -> ct (fun _ _ => True) m1 m2.
Proof.
  intros [t1 r1] [t2 r2] H1 H2. unfold ct; simpl in *. subst. destruct r1, r2; auto.
Qed.
Lemma znth_quiet : forall l i, fst (znth l i) = [].
Proof. intros. unfold znth. destruct (_ && _); reflexivity. Qed.
Lemma rct_load_any : forall a b i j, ne_pair a b -> ct drel (load_l a i) (load_l b j).
Proof.
  intros a b i j H. destruct (ne_pair_inv a b H) as (l & l' & -> & -> & E). unfold load_l.
  apply ct_tick; [apply NOIDX|]. apply ct_any; apply znth_quiet.
Qed.
Lemma rct_store_ne : forall a b i v w, ne_pair a b -> ct ne_pair (store_trunc a i v) (store_trunc b i w).
Proof.
  intros a b i v w H.
  pose proof (rct_store_trunc REL a b i i v w (proj1 H) eq_refl) as X.
  destruct (ne_pair_inv a b H) as (l & l' & -> & -> & E).
  assert (K : forall l v x, snd (store_trunc (NE l) i v) = Some x -> kind_of x = KNE).
  { clear. intros l v x. unfold store_trunc, store_l_full, store_l, partial_high_mask, bind, tick.
    cbn. destruct (i + 1 =? nlimbs (NE l)); cbn.
    - unfold zupd. destruct (_ && _); cbn; try discriminate; intros E; injection E as <-; reflexivity.
    - unfold zupd. destruct (_ && _); cbn; try discriminate; intros E; injection E as <-; reflexivity. }
  unfold ct in *. specialize (K l v).
  destruct (snd (store_trunc (NE l) i v)) eqn:E1, (snd (store_trunc (NE l') i w)) eqn:E2; auto.
  destruct X. split; auto. split; auto.
Qed.
#[local] Hint Resolve rct_load_any : ct.
#[local] Hint Extern 0 (ne_pair _ _) => eassumption : ct.
Lemma rct_lshift_out_any : forall a b s t, ne_pair a b -> ct drel (lshift_out a s) (lshift_out b t).
Proof. intros a b s t H. pose proof (proj1 H). unfold lshift_out. ct_auto. Qed.
Lemma rct_rshift_out_any : forall a b s t, ne_pair a b -> ct drel (rshift_out a s) (rshift_out b t).
Proof. intros a b s t H. pose proof (proj1 H). unfold rshift_out. ct_auto. Qed.
Lemma rct_lshift_any : forall a b s t, ne_pair a b -> ct drel (ct_lshift_mp a s) (ct_lshift_mp b t).
Proof.
  intros a b s t H. pose proof (proj1 H) as SS. unfold ct_lshift_mp. cbv zeta.
  rewrite (shape_empty a b SS), (shape_len a b SS), (shape_nlimbs a b SS).
  apply ct_tick; auto. apply ct_if; auto; intros E; [apply ct_ret; split; [exact SS|exact I]|].
  eapply ct_bind; [apply rct_lshift_out_any; auto|]. intros x x' _.
  eapply ct_bind; [ct_leaf fail|]. intros g g' _.
  eapply ct_bind; [ct_leaf fail|]. intros al al' _. rewrite !(rel_dassert REL).
  eapply ct_bind; [ct_leaf fail|]. intros dn dn' _.
  eapply ct_bind; [ct_leaf fail|]. intros k k' _.
  eapply ct_bind; [apply rct_load_any; auto|]. intros l l' _.
  eapply ct_bind.
  { apply ct_for_down with (R := fun p q : mp * Z * Z => ne_pair (fst (fst p)) (fst (fst q))); auto.
    intros i [[a1 o1] l1] [[b1 o1'] l1'] Hi H1. cbn [fst] in H1.
    eapply ct_bind; [ct_leaf fail|]. intros e e' _.
    eapply ct_bind; [ct_leaf fail|]. intros ix ix' _.
    eapply ct_bind; [apply rct_load_any; auto|]. intros sl sl' _.
    eapply ct_bind; [ct_leaf fail|]. intros dl dl' _.
    eapply ct_bind; [ct_leaf fail|]. intros dh dh' _.
    eapply ct_bind; [apply rct_store_ne; auto|]. intros a2 b2 H2. apply ct_ret. auto. }
  intros [[a1 o1] l1] [[b1 o1'] l1'] [H1 _]. cbn [fst] in H1.
  eapply ct_bind; [apply rct_clear_bits_below; auto|]. intros a2 b2 H2. apply ct_ret. split; [exact H2|exact I].
Qed.
Lemma rct_rshift_any : forall a b s t, ne_pair a b -> ct drel (ct_rshift_mp a s) (ct_rshift_mp b t).
Proof.
  intros a b s t H. pose proof (proj1 H) as SS. unfold ct_rshift_mp. cbv zeta.
  rewrite (shape_empty a b SS), (shape_len a b SS), (shape_nlimbs a b SS).
  apply ct_tick; auto. apply ct_if; auto; intros E; [apply ct_ret; split; [exact SS|exact I]|].
  eapply ct_bind; [apply rct_rshift_out_any; auto|]. intros x x' _.
  eapply ct_bind; [ct_leaf fail|]. intros g g' _.
  eapply ct_bind; [ct_leaf fail|]. intros al al' _. rewrite ?(rel_dassert REL).
  eapply ct_bind; [ct_leaf fail|]. intros ge ge' _.
  eapply ct_bind; [ct_leaf fail|]. intros k k' _.
  eapply ct_bind; [apply rct_load_any; auto|]. intros l l' _.
  eapply ct_bind.
  { apply ct_for with (R := fun p q : mp * Z * Z => ne_pair (fst (fst p)) (fst (fst q))); auto.
    intros i [[a1 o1] l1] [[b1 o1'] l1'] Hi H1. cbn [fst] in H1.
    eapply ct_bind; [ct_leaf fail|]. intros d d' _.
    eapply ct_bind; [ct_leaf fail|]. intros e e' _.
    eapply ct_bind; [ct_leaf fail|]. intros ix ix' _.
    eapply ct_bind; [apply rct_load_any; auto|]. intros sl sl' _.
    eapply ct_bind; [ct_leaf fail|]. intros dl dl' _.
    eapply ct_bind; [ct_leaf fail|]. intros dh dh' _.
    eapply ct_bind; [apply rct_store_ne; auto|]. intros a2 b2 H2. apply ct_ret. auto. }
  intros [[a1 o1] l1] [[b1 o1'] l1'] [H1 _]. cbn [fst] in H1.
  eapply ct_bind; [ct_leaf fail|]. intros kk kk' _.
  eapply ct_bind; [apply rct_clear_bits_above; auto|]. intros a2 b2 H2. apply ct_ret. split; [exact H2|exact I].
Qed.
End Shift.
