(** Montgomery arithmetic and exponentiation run in constant time: whenever both
    runs succeed, their traces agree.  A check that fails in one of them makes that
    run end with an error. *)
From Coq Require Import ZArith List Bool Lia.
Require Import Verif.Spec Verif.Monad Verif.Base Verif.Wp Verif.BufFacts3 Verif.ModelLimb Verif.ModelBuf Verif.SpecBuf Verif.LimbFacts Verif.LimbFacts2 Verif.BufFacts Verif.BufFacts2 Verif.UpFacts Verif.MontFacts6
  Verif.ModelCmp Verif.ModelAdd Verif.ModelShift Verif.ModelMul Verif.ModelDiv Verif.ModelMont
  Verif.Ct Verif.CtLimb Verif.CtBuf Verif.CtArith Verif.CtDiv.
Import ListNotations.
Open Scope Z_scope.

Section Mont.
Context {c : cfg} {o : obs}.
Hypothesis REL : debug c = false.
Hypothesis PART : strict = false.

Lemma bind_assoc : forall A C D (m : M A) (f : A -> M C) (g : C -> M D),
  bind (bind m f) g = bind m (fun x => bind (f x) g).
Proof.
  intros A C D [t [a|]] f g; unfold bind; simpl; auto.
  destruct (f a) as [t1 [b|]]; simpl; auto. destruct (g b) as [t2 r]. rewrite app_assoc. auto.
Qed.
Lemma bind_ret : forall A C (a : A) (f : A -> M C), bind (ret a) f = f a.
Proof. intros. unfold bind, ret. simpl. destruct (f a). auto. Qed.
Lemma ct_part_l : forall A (R : A -> A -> Prop) m1 m2, snd m1 = None -> ct R m1 m2.
Proof. intros A R m1 m2 H. unfold ct. rewrite H. destruct (snd m2); auto. rewrite PART. discriminate. Qed.
Lemma ct_part_r : forall A (R : A -> A -> Prop) m1 m2, snd m2 = None -> ct R m1 m2.
Proof. intros A R m1 m2 H. unfold ct. rewrite H. destruct (snd m1); auto. rewrite PART. discriminate. Qed.

(** A result that has to be a success. *)
Definition okm {A E T} (m : M (result A E * T)) : M T := let! r := m in unwrap r.
Lemma ct_okm : forall A E T X (R : T -> T -> Prop) (Q : X -> X -> Prop) (m m' : M (result A E * T)) k k',
  ct R (okm m) (okm m') -> (forall a b, R a b -> ct Q (k a) (k' b)) ->
  ct Q (bind m (fun r => bind (unwrap r) k)) (bind m' (fun r => bind (unwrap r) k')).
Proof.
  intros A E T X R Q m m' k k' H H1. rewrite <- !bind_assoc. eapply ct_bind; eauto.
Qed.
Lemma ok_mif : forall A E T (R : T -> T -> Prop) (b b' : bool) (e e' : E) t t' (k k' : M (result A E * T)),
  (b = false -> b' = false -> ct R (okm k) (okm k')) ->
  ct R (okm (mif b then ret (Err e, t) else k)) (okm (mif b' then ret (Err e', t') else k')).
Proof.
  intros A E T R b b' e e' t t' k k' H. unfold okm. rewrite !bind_assoc.
  destruct b; [apply ct_part_l; reflexivity|]. destruct b'; [apply ct_part_r; reflexivity|].
  apply ct_tick; auto.
Qed.
Lemma ok_bind : forall X A E T (P : X -> X -> Prop) (R : T -> T -> Prop) m m' (k k' : X -> M (result A E * T)),
  ct P m m' -> (forall x y, P x y -> ct R (okm (k x)) (okm (k' y))) -> ct R (okm (bind m k)) (okm (bind m' k')).
Proof.
  intros X A E T P R m m' k k' H H1. unfold okm. rewrite !bind_assoc. eapply ct_bind; eauto.
Qed.
Lemma ok_ret : forall A E T (R : T -> T -> Prop) (a a' : A) t t', R t t' ->
  ct R (okm (ret (@Ok A E a, t))) (okm (ret (@Ok A E a', t'))).
Proof. intros. apply ct_ret. auto. Qed.
Lemma rct_compat_t : forall a b len len', same_shape a b -> len = len' ->
  ct (fun _ _ => True) (len_is_compatible_with a len) (len_is_compatible_with b len').
Proof. intros a b len len' H <-. unfold len_is_compatible_with. ct_auto. Qed.

Lemma rct_redc_start : forall e e' a b k a' b' k', e = e' -> ct drel (redc_start e a b k) (redc_start e' a' b' k').
Proof. intros; subst. unfold redc_start, redc_rshift_lo. ct_auto. Qed.
Lemma rct_redc_update : forall k k' a b a' b', ct drel (redc_update k a b) (redc_update k' a' b').
Proof. intros. unfold redc_update, redc_rshift_lo, redc_lshift_hi. ct_auto. Qed.
Lemma rct_redc_finish : forall k k' a a', ct drel (redc_finish k a) (redc_finish k' a').
Proof. intros. unfold redc_finish, redc_lshift_hi. ct_auto. Qed.
#[local] Hint Resolve rct_redc_start rct_redc_update rct_redc_finish : ct.
Lemma rct_mg_finish : forall t t' s s' n n' k k' a b a' b', same_shape t t' -> same_shape s s' -> same_shape n n' -> k = k' ->
  ct drel (mg_finish t s n k a b) (mg_finish t' s' n' k' a' b').
Proof.
  intros t t' s s' n n' k k' a b a' b' H H1 H2 <-. unfold mg_finish. cbv zeta.
  rewrite (shape_mask s s' H1), (shape_shift s s' H1).
  eapply ct_bind; [ct_leaf fail|]. intros m m' _.
  eapply ct_bind; [apply ct_assert; exact PART|]. intros _ _ _.
  unfold dassert_not_geq. ct_auto.
Qed.
Lemma rct_redc_step : forall n n' a b a' b' p q p' q' s t, same_shape n n' -> p = p' -> q = q' -> 
  drel s t -> ct drel (redc_step n a b p q s) (redc_step n' a' b' p' q' t).
Proof. intros n n' a b a' b' p q p' q' s t H <- <- H1. ct_norm. unfold redc_step. ct_auto. Qed.
#[local] Hint Resolve rct_mg_finish rct_redc_step : ct.
Lemma rct_redc : forall t t' n n' g g', same_shape t t' -> same_shape n n' ->
  ct same_shape (okm (ct_montgomery_redc_mp t n g)) (okm (ct_montgomery_redc_mp t' n' g')).
Proof.
  intros t t' n n' g g' Ht Hn. unfold ct_montgomery_redc_mp.
  apply ok_mif; intros _ _.
  eapply ok_bind; [ct_leaf fail|]. intros x x' _.
  eapply ok_bind; [ct_leaf fail|]. intros y y' _.
  apply ok_mif; intros _ _.
  eapply ok_bind; [apply rct_compat_t; auto; symmetry; apply shape_len; auto|]. intros z z' _.
  apply ok_mif; intros _ _.
  eapply ok_bind; [apply rct_compat_t; auto; rewrite (shape_len n n' Hn); auto|]. intros w w' _.
  apply ok_mif; intros _ _.
  cbv zeta. rewrite !(rel_dassert REL), (shape_len n n' Hn), (shape_nlimbs n n' Hn), (shape_nlimbs t t' Ht).
  eapply ok_bind; [apply ct_refl; reflexivity|]. intros l l' <-.
  eapply ok_bind; [ct_leaf fail|]. intros h h' _.
  eapply ok_bind.
  { apply ct_for with (R := drel); auto; [split; [split|]; first [exact I|assumption]|]. intros; ct_auto. }
  intros [[t1 c1] h1] [[t1' c1'] h1'] [[H1 _] _]. cbn [fst snd] in H1. change (same_shape t1 t1') in H1.
  eapply ok_bind; [apply rct_mg_finish; auto|]. intros t2 t2' H2. apply ok_ret. exact H2.
Qed.

Lemma rct_mg_acc : forall r r' b b' j j' h h', same_shape r r' -> b = b' -> j = j' ->
  ct drel (mg_acc r b j h) (mg_acc r' b' j' h').
Proof. intros; subst. unfold mg_acc. ct_auto. Qed.
#[local] Hint Resolve rct_mg_acc : ct.
Lemma rct_mg_mul_step : forall a a' b b' n n' x y x' y' i i' s t, same_shape a a' -> same_shape b b' -> same_shape n n' ->
  i = i' -> drel s t -> ct drel (mg_mul_step a b n x y i s) (mg_mul_step a' b' n' x' y' i' t).
Proof. intros a a' b b' n n' x y x' y' i i' s t H H0 H1 <- H2. ct_norm. unfold mg_mul_step. ct_auto. Qed.
Lemma rct_mg_redc_step : forall n n' x y x' y' s t, same_shape n n' ->
  drel s t -> ct drel (mg_redc_step n x y s) (mg_redc_step n' x' y' t).
Proof. intros n n' x y x' y' s t H H1. ct_norm. unfold mg_redc_step. ct_auto. Qed.
Lemma rct_mg_mul : forall r r' a a' b b' n n' g g', same_shape r r' -> same_shape a a' -> same_shape b b' -> same_shape n n' ->
  ct same_shape (okm (ct_montgomery_mul_mod_mp_mp r a b n g)) (okm (ct_montgomery_mul_mod_mp_mp r' a' b' n' g')).
Proof.
  intros r r' a a' b b' n n' g g' Hr Ha Hb Hn. unfold ct_montgomery_mul_mod_mp_mp.
  apply ok_mif; intros _ _.
  eapply ok_bind; [ct_leaf fail|]. intros x x' _.
  eapply ok_bind; [ct_leaf fail|]. intros y y' _.
  apply ok_mif; intros _ _.
  eapply ok_bind; [apply rct_compat_t; auto; symmetry; apply shape_len; auto|]. intros z z' _.
  apply ok_mif; intros _ _.
  rewrite !(rel_dassert REL).
  eapply ok_bind; [apply rct_compat_t; auto; symmetry; apply shape_len; auto|]. intros w w' _.
  destruct w; [|unfold okm; rewrite !bind_assoc; apply ct_part_l; reflexivity].
  destruct w'; [|unfold okm; rewrite !bind_assoc; apply ct_part_r; reflexivity].
  cbn [negb].
  eapply ok_bind with (P := fun _ _ => True).
  { apply ct_tick; auto. eapply ct_bind; [apply rct_compat_t; auto; symmetry; apply shape_len; auto|].
    intros; apply ct_ret; auto. }
  intros v v' _. apply ok_mif; intros _ _.
  cbv zeta. repeat (rewrite ?(rel_dassert REL); rewrite ?(rel_dassert_lt REL)).
  rewrite (shape_len n n' Hn), (shape_nlimbs n n' Hn), (shape_nlimbs a a' Ha).
  eapply ok_bind; [ct_leaf fail|]. intros rf rf' Hrf. ct_norm.
  eapply ok_bind; [apply rct_shrink_to; auto|]. intros r0 r0' Hr0. ct_norm.
  rewrite !(rel_dassert REL).
  eapply ok_bind.
  { apply ct_for with (R := drel); auto; [split; [split|]; first [exact I|assumption]|]. intros; apply rct_mg_mul_step; auto. }
  intros [[t1 c1] h1] [[t1' c1'] h1'] [[H1 _] _]. cbn [fst snd] in H1. change (same_shape t1 t1') in H1.
  eapply ok_bind.
  { apply ct_for with (R := drel); auto; [split; [split|]; first [exact I|assumption]|]. intros; apply rct_mg_redc_step; auto. }
  intros [[t2 c2] h2] [[t2' c2'] h2'] [[H2 _] _]. cbn [fst snd] in H2. change (same_shape t2 t2') in H2.
  rewrite !(rel_dassert REL).
  eapply ok_bind; [apply rct_mg_finish; auto|]. intros t3 t3' H3. apply ok_ret. apply shape_unshrink; auto.
Qed.
Lemma rct_exp_loop : forall r r' a a' n n' g g' e e' k s s', same_shape r r' -> same_shape a a' -> same_shape n n' ->
  same_shape e e' -> zlen s' = zlen s ->
  ct drel (mg_exp_loop r a n g e k s) (mg_exp_loop r' a' n' g' e' k s').
Proof.
  intros r r' a a' n n' g g' e e' k s s' Hr Ha Hn He Hs. unfold mg_exp_loop. cbv zeta.
  rewrite !(rel_dassert REL), (shape_len n n' Hn), (shape_len e e' He).
  assert (Hs' : same_shape (NE s) (NE s')) by (apply shape_ne; auto).
  eapply ct_bind; [ct_leaf fail|]. intros sf sf' Hsf. ct_norm.
  eapply ct_bind; [apply rct_shrink_to; auto|]. intros s0 s0' Hs0. ct_norm.
  eapply ct_bind.
  { apply ct_for with (R := drel); auto; [split; cbn; auto|]. intros i [r1 s1] [r1' s1'] Hi [H1 H2]. ct_norm.
    cbn [fst snd] in *. change (same_shape r1 r1') in H1. change (same_shape s1 s1') in H2.
    eapply ct_okm; [apply rct_mg_mul; auto|]. intros s2 s2' H3.
    eapply ct_okm; [apply rct_mg_mul; auto|]. intros r2 r2' H4. ct_auto. }
  intros [r1 s1] [r1' s1'] [H1 H2]. cbn [fst snd] in *. change (same_shape r1 r1') in H1. change (same_shape s1 s1') in H2.
  assert (HU : same_shape (mp_unshrink sf s1) (mp_unshrink sf' s1')) by (apply shape_unshrink; auto).
  apply shape_inv in HU. destruct (mp_unshrink sf s1), (mp_unshrink sf' s1'); try tauto; try apply ct_panic.
  apply ct_ret. split; cbn; auto.
Qed.

Definition ok3 {A E T X} (m : M (result A E * T * X)) : M (T * X) :=
  let! r := m in match r with (Ok _, t, x) => ret (t, x) | _ => panic end.
Lemma ok3_mif : forall A E T X (R : T * X -> T * X -> Prop) (b b' : bool) (e e' : E) t t' x x' (k k' : M (result A E * T * X)),
  (b = false -> b' = false -> ct R (ok3 k) (ok3 k')) ->
  ct R (ok3 (mif b then ret (Err e, t, x) else k)) (ok3 (mif b' then ret (Err e', t', x') else k')).
Proof.
  intros A E T X R b b' e e' t t' x x' k k' H. unfold ok3. rewrite !bind_assoc.
  destruct b; [apply ct_part_l; reflexivity|]. destruct b'; [apply ct_part_r; reflexivity|].
  apply ct_tick; auto.
Qed.
Lemma ok3_bind : forall Y A E T X (P : Y -> Y -> Prop) (R : T * X -> T * X -> Prop) m m' (k k' : Y -> M (result A E * T * X)),
  ct P m m' -> (forall x y, P x y -> ct R (ok3 (k x)) (ok3 (k' y))) -> ct R (ok3 (bind m k)) (ok3 (bind m' k')).
Proof.
  intros Y A E T X P R m m' k k' H H1. unfold ok3. rewrite !bind_assoc. eapply ct_bind; eauto.
Qed.
(** Exponentiation in Montgomery form: base, modulus, exponent and radix are secret,
    the bound on the number of the exponent's bits is public. *)
Lemma rct_mexp : forall r r' a a' n n' g g' x x' e e' k s s', same_shape r r' -> same_shape a a' -> same_shape n n' ->
  same_shape x x' -> same_shape e e' -> zlen s' = zlen s ->
  ct drel (ok3 (ct_montgomery_exp_mod_odd_mp_mp r a n g x e k s)) (ok3 (ct_montgomery_exp_mod_odd_mp_mp r' a' n' g' x' e' k s')).
Proof.
  intros r r' a a' n n' g g' x x' e e' k s s' Hr Ha Hn Hx He Hs. unfold ct_montgomery_exp_mod_odd_mp_mp.
  eapply ok3_bind; [ct_leaf fail|]. intros y y' _. apply ok3_mif; intros _ _.
  eapply ok3_bind; [apply rct_compat_t; auto; symmetry; apply shape_len; auto|]. intros z z' _. apply ok3_mif; intros _ _.
  apply ok3_mif; intros _ _.
  eapply ok3_bind; [apply rct_compat_t; auto; symmetry; apply shape_len; auto|]. intros w w' _. apply ok3_mif; intros _ _.
  rewrite !(rel_dassert_lt REL).
  eapply ok3_bind; [apply rct_compat_t; auto; symmetry; apply shape_len; auto|]. intros v v' _. apply ok3_mif; intros _ _.
  rewrite ?(rel_dassert_lt REL), (shape_len n n' Hn).
  eapply ok3_bind; [ct_leaf fail|]. intros rf rf' Hrf. ct_norm.
  eapply ok3_bind; [apply rct_shrink_to; auto|]. intros r0 r0' Hr0. ct_norm.
  rewrite !(rel_dassert REL).
  eapply ok3_bind; [ct_leaf fail|]. intros r1 r1' Hr1. ct_norm.
  eapply ok3_bind; [apply rct_exp_loop; eauto|]. intros [r2 s2] [r2' s2'] [H1 H2]. cbn [fst snd] in *.
  apply ct_ret. split; cbn [fst snd]; auto. apply shape_unshrink; auto.
Qed.

(** ** The divisor of a modulus of public length *)
Lemma top_zero : forall b i, mp_ok b -> 0 <= i -> mpval b < B ^ (i + 1) -> (limb b i =? 0) = (mpval b <? B ^ i).
Proof.
  intros b i Hb Hi Hv. rewrite limb_vlimb. pose proof (mpval_nonneg b Hb). unfold vlimb.
  pose proof (Bpow_pos i). assert (BP : 0 < B ^ i) by (apply H0; auto).
  assert (D : mpval b / B ^ i < B).
  { apply Z.div_lt_upper_bound; [auto|]. rewrite Z.mul_comm, <- Bpow_S by auto. auto. }
  rewrite Z.mod_small by (split; [apply Z.div_pos; lia|auto]).
  destruct (Z.ltb_spec (mpval b) (B ^ i)) as [E|E].
  - rewrite Z.div_small by lia. reflexivity.
  - apply Z.eqb_neq. intros E1. apply Z.div_small_iff in E1; lia.
Qed.
Definition same_blen (a b : mp) : Prop := (nbits (mpval a) + 7) / 8 = (nbits (mpval b) + 7) / 8.
Lemma same_blen_lt : forall a b i, mp_ok a -> mp_ok b -> same_blen a b -> 0 <= i -> (mpval a <? B ^ i) = (mpval b <? B ^ i).
Proof.
  intros a b i Ha Hb H Hi. pose proof LB_pos. rewrite B_256, <- Z.pow_mul_r by lia.
  assert (P : 0 <= LB * i) by lia.
  pose proof (nbytes_le_iff (mpval a) (LB * i) (mpval_nonneg a Ha) P).
  pose proof (nbytes_le_iff (mpval b) (LB * i) (mpval_nonneg b Hb) P). unfold same_blen in H. rewrite H in *.
  destruct (Z.ltb_spec (mpval a) (256 ^ (LB * i))), (Z.ltb_spec (mpval b) (256 ^ (LB * i))); auto; exfalso; lia.
Qed.
Lemma rct_fls_limb_loop : forall a b n, same_shape a b -> mp_ok a -> mp_ok b -> same_blen a b ->
  Z.of_nat n <= nlimbs a - 1 -> mpval a < B ^ Z.of_nat n ->
  ct eq (fls_limb_loop n a) (fls_limb_loop n b).
Proof.
  intros a b n SS Ha Hb HL. induction n; intros Hn Hv; cbn [fls_limb_loop]; [apply ct_tick; auto; apply ct_ret; auto|].
  apply ct_tick; auto.
  assert (F : (Z.of_nat n + 1) * LB <= mp_len a) by (apply nlimbs_full; lia).
  eapply ct_bind.
  { eapply ct_wp; [apply rct_load_l_full; [exact REL|exact SS|reflexivity]| |].
    - apply wp_load_full with (Q := fun x => x = limb a (Z.of_nat n)); auto; lia.
    - apply wp_load_full with (Q := fun x => x = limb b (Z.of_nat n)); auto; [lia|rewrite (shape_len a b SS); auto]. }
  intros x y (_ & -> & ->).
  assert (HS : B ^ Z.of_nat (S n) = B ^ (Z.of_nat n + 1)) by (f_equal; lia).
  assert (Hv' : mpval b < B ^ (Z.of_nat n + 1)).
  { pose proof (same_blen_lt a b (Z.of_nat n + 1) Ha Hb HL ltac:(lia)) as E. apply Z.ltb_lt. rewrite <- E. apply Z.ltb_lt. lia. }
  rewrite HS in Hv. rewrite (top_zero a) by (auto; lia). rewrite (top_zero b) by (auto; lia).
  rewrite <- (same_blen_lt a b (Z.of_nat n) Ha Hb HL) by lia.
  apply ct_tick; auto. apply ct_if; auto.
  - intros _. apply ct_ret; auto.
  - intros E. apply negb_false_iff, Z.ltb_lt in E. apply IHn; lia.
Qed.
Lemma rct_find_last_limb : forall a b, same_shape a b -> mp_ok a -> mp_ok b -> same_blen a b ->
  ct eq (find_last_set_limb a) (find_last_set_limb b).
Proof.
  intros a b S Ha Hb HL. unfold find_last_set_limb. cbv zeta. rewrite (shape_nlimbs a b S).
  pose proof (nlimbs_nonneg a) as N0.
  apply ct_tick; auto. apply ct_if; auto; intros E; [apply ct_ret; auto|]. apply Z.eqb_neq in E.
  eapply ct_bind.
  { eapply ct_wp; [apply rct_load_l; [exact REL|exact S|reflexivity]| |].
    - apply wp_load with (Q := fun x => x = limb a (nlimbs a - 1)); auto; lia.
    - apply wp_load with (Q := fun x => x = limb b (nlimbs a - 1)); auto. rewrite (shape_nlimbs a b S). lia. }
  intros x y (_ & -> & ->).
  pose proof (mpval_bound_B a Ha). pose proof (mpval_bound_B b Hb). rewrite (shape_nlimbs a b S) in *.
  replace (nlimbs a) with (nlimbs a - 1 + 1) in H, H0 by lia.
  rewrite (top_zero a) by (auto; lia). rewrite (top_zero b) by (auto; lia).
  rewrite <- (same_blen_lt a b (nlimbs a - 1) Ha Hb HL) by lia.
  apply ct_tick; auto. apply ct_if; auto; intros E1; [|apply ct_ret; auto].
  apply Z.ltb_lt in E1. apply rct_fls_limb_loop; auto; rewrite Z2Nat.id; lia.
Qed.
Lemma rct_find_last_byte : forall a b, same_shape a b -> mp_ok a -> mp_ok b -> same_blen a b ->
  ct eq (find_last_set_byte_mp a) (find_last_set_byte_mp b).
Proof.
  intros a b S Ha Hb HL.
  assert (T : ct (fun _ _ => True) (find_last_set_byte_mp a) (find_last_set_byte_mp b)).
  { unfold find_last_set_byte_mp. eapply ct_bind; [apply rct_find_last_limb; auto|]. intros n ? <-. ct_auto. }
  eapply ct_weaken.
  { eapply ct_wp; [exact T|apply wp_find_last_set_byte with (Q := fun x => x = (nbits (mpval a) + 7) / 8); auto
                          |apply wp_find_last_set_byte with (Q := fun x => x = (nbits (mpval b) + 7) / 8); auto]. }
  intros x y (_ & -> & ->). exact HL.
Qed.
Definition okd {A E} (m : M (result A E)) : M A := let! r := m in match r with Ok a => ret a | Err _ => panic end.
Lemma okd_mif : forall A E (R : A -> A -> Prop) (b b' : bool) (e e' : E) (k k' : M (result A E)),
  (b = false -> b' = false -> ct R (okd k) (okd k')) ->
  ct R (okd (mif b then ret (Err e) else k)) (okd (mif b' then ret (Err e') else k')).
Proof.
  intros A E R b b' e e' k k' H. unfold okd. rewrite !bind_assoc.
  destruct b; [apply ct_part_l; reflexivity|]. destruct b'; [apply ct_part_r; reflexivity|].
  apply ct_tick; auto.
Qed.
Lemma okd_bind : forall X A E (P : X -> X -> Prop) (R : A -> A -> Prop) m m' (k k' : X -> M (result A E)),
  ct P m m' -> (forall x y, P x y -> ct R (okd (k x)) (okd (k' y))) -> ct R (okd (bind m k)) (okd (bind m' k')).
Proof.
  intros X A E P R m m' k k' H H1. unfold okd. rewrite !bind_assoc. eapply ct_bind; eauto.
Qed.
Lemma rct_l_divisor_new : forall v w, ct (fun _ _ => True) (okd (ct_l_divisor_new v)) (okd (ct_l_divisor_new w)).
Proof.
  intros v w. unfold ct_l_divisor_new. eapply okd_bind; [ct_leaf fail|]. intros x y _. apply okd_mif; intros _ _.
  rewrite !(rel_dassert REL). eapply okd_bind; [ct_leaf fail|]. intros l l' _.
  eapply okd_bind; [ct_leaf fail|]. intros m m' _. apply ct_ret; auto.
Qed.
Lemma ct_okd : forall A E X (R : A -> A -> Prop) (Q : X -> X -> Prop) (m m' : M (result A E)) (k k' : result A E -> M X),
  ct R (okd m) (okd m') -> (forall a b, R a b -> ct Q (k (Ok a)) (k' (Ok b))) ->
  (forall e, snd (k (Err e)) = None) -> (forall e, snd (k' (Err e)) = None) ->
  ct Q (bind m k) (bind m' k').
Proof.
  intros A E X R Q [t [[a|e]|]] [t' [[b|e']|]] k k' H H1 H2 H3; unfold okd, ct, bind in *; cbn [snd fst] in *.
  - destruct H as [HT HR]. cbn in HT. rewrite !app_nil_r in HT.
    specialize (H1 a b HR). unfold ct in H1. destruct (k (Ok a)) as [t1 [x|]], (k' (Ok b)) as [t1' [y|]]; cbn [snd fst trace] in *.
    + destruct H1. split; auto. unfold trace in *. cbn [fst] in *. rewrite !map_app. congruence.
    + auto.
    + auto.
    + rewrite PART. discriminate.
  - specialize (H3 e'). destruct (k' (Err e')) as [? [?|]]; cbn in *; [discriminate|].
    destruct (k (Ok a)) as [? [?|]]; cbn; auto. rewrite PART; discriminate.
  - destruct (k (Ok a)) as [? [?|]]; cbn; auto. rewrite PART; discriminate.
  - specialize (H2 e). destruct (k (Err e)) as [? [?|]]; cbn in *; [discriminate|].
    destruct (k' (Ok b)) as [? [?|]]; cbn; auto. rewrite PART; discriminate.
  - specialize (H2 e). destruct (k (Err e)) as [? [?|]]; cbn in *; [discriminate|].
    destruct (k' (Err e')) as [? [?|]]; cbn; auto. rewrite PART; discriminate.
  - specialize (H2 e). destruct (k (Err e)) as [? [?|]]; cbn in *; [discriminate|]. rewrite PART; discriminate.
  - destruct (k' (Ok b)) as [? [?|]]; cbn; auto. rewrite PART; discriminate.
  - specialize (H3 e'). destruct (k' (Err e')) as [? [?|]]; cbn in *; [discriminate|]. rewrite PART; discriminate.
  - rewrite PART; discriminate.
Qed.
Lemma rct_divisor_new : forall a b, same_shape a b -> mp_ok a -> mp_ok b -> same_blen a b ->
  ct dv_shape (okd (mp_divisor_new a None)) (okd (mp_divisor_new b None)).
Proof.
  intros a b S Ha Hb HL. unfold mp_divisor_new. cbv zeta.
  apply okd_mif; intros _ _.
  eapply okd_bind with (P := fun s t => match s, t with Some (l, _), Some (l', _) => l = l' | _, _ => False end).
  { eapply ct_bind; [apply rct_find_last_byte; auto|]. intros l ? <-.
    eapply ct_bind; [apply ct_refl; reflexivity|]. intros i ? <-. ct_auto. }
  intros [[l x]|] [[l' x']|] H; try tauto. subst l'.
  apply okd_mif; intros _ _.
  eapply okd_bind; [ct_leaf fail|]. intros w w' _. rewrite !(rel_dassert REL).
  eapply okd_bind; [ct_leaf fail|]. intros sh sh' _.
  eapply okd_bind; [ct_leaf fail|]. intros r r' _.
  eapply okd_bind; [ct_leaf fail|]. intros m m' _.
  eapply okd_bind; [apply ct_refl; reflexivity|]. intros f ? <-.
  eapply okd_bind; [apply ct_refl; reflexivity|]. intros z ? <-.
  eapply okd_bind.
  { apply ct_default. apply ct_for with (R := drel); auto; [repeat split|].
    intros. ct_norm. eapply ct_bind; [ct_leaf fail|]. intros. eapply ct_bind; [ct_leaf fail|].
    intros [? ?] [? ?] _. eapply ct_bind; [apply rct_scale_val_; auto|]. intros [? ?] [? ?] _. apply ct_ret. repeat split. }
  intros [[[p q] h] t] [[[p' q'] h'] t'] _. rewrite !(rel_dassert REL).
  unfold okd. rewrite !bind_assoc.
  eapply ct_okd; [apply rct_l_divisor_new| |reflexivity|reflexivity].
  intros d d' _. apply ct_ret. split; cbn; auto.
Qed.

(** ** Plain modular exponentiation *)
Lemma rct_radix2 : forall r r' n n', same_shape r r' -> same_shape n n' -> mp_ok n -> mp_ok n' -> same_blen n n' ->
  ct same_shape (okm (ct_montgomery_radix2_mod_n_mp r n)) (okm (ct_montgomery_radix2_mod_n_mp r' n')).
Proof.
  intros r r' n n' Hr Hn On On' HL. unfold ct_montgomery_radix2_mod_n_mp.
  eapply ok_bind; [ct_leaf fail|]. intros y y' _. apply ok_mif; intros _ _.
  eapply ok_bind; [apply rct_compat_t; auto; symmetry; apply shape_len; auto|]. intros z z' _. apply ok_mif; intros _ _.
  rewrite (shape_len n n' Hn).
  eapply ok_bind; [ct_leaf fail|]. intros rf rf' Hrf. ct_norm.
  eapply ok_bind; [apply rct_shrink_to; auto|]. intros r0 r0' Hr0. ct_norm.
  rewrite !(rel_dassert REL). cbv zeta. unfold okm. rewrite !bind_assoc.
  eapply ct_okd; [apply rct_divisor_new; auto| |intros []; rewrite ?(rel_dassert REL); reflexivity|intros []; rewrite ?(rel_dassert REL); reflexivity].
  intros d d' Hd. rewrite !bind_assoc.
  eapply ct_bind; [apply rct_mod_pow2; auto|]. intros [x r1] [x' r1'] [H1 H2]. cbn [fst snd] in *.
  destruct x, x'; cbn in H1; try tauto.
  - rewrite !bind_ret. apply ct_ret. apply shape_unshrink; auto.
  - rewrite !(rel_dassert REL). apply ct_part_l. reflexivity.
Qed.
Lemma rct_to_form : forall r r' t t' n n' g g' x x', same_shape r r' -> same_shape t t' -> same_shape n n' -> same_shape x x' ->
  ct same_shape (okm (ct_to_montgomery_form_mp r t n g x)) (okm (ct_to_montgomery_form_mp r' t' n' g' x')).
Proof.
  intros r r' t t' n n' g g' x x' Hr Ht Hn Hx. unfold ct_to_montgomery_form_mp.
  eapply ok_bind; [apply rct_compat_t; auto; symmetry; apply shape_len; auto|]. intros z z' _. apply ok_mif; intros _ _.
  eapply ok_bind; [apply rct_compat_t; auto; symmetry; apply shape_len; auto|]. intros w w' _. apply ok_mif; intros _ _.
  rewrite !(rel_dassert_lt REL). apply rct_mg_mul; auto.
Qed.
Lemma rct_to_form_direct : forall t t' n n', same_shape t t' -> same_shape n n' -> mp_ok n -> mp_ok n' -> same_blen n n' ->
  ct same_shape (okm (ct_to_montgomery_form_direct_mp t n)) (okm (ct_to_montgomery_form_direct_mp t' n')).
Proof.
  intros t t' n n' Ht Hn On On' HL. unfold ct_to_montgomery_form_direct_mp.
  eapply ok_bind; [ct_leaf fail|]. intros y y' _. apply ok_mif; intros _ _.
  eapply ok_bind; [apply rct_compat_t; auto; symmetry; apply shape_len; auto|]. intros z z' _. apply ok_mif; intros _ _.
  rewrite !(rel_dassert REL). cbv zeta. rewrite (shape_len n n' Hn), (shape_len t t' Ht). unfold okm. rewrite !bind_assoc.
  eapply ct_okd; [apply rct_divisor_new; auto| |intros []; rewrite ?(rel_dassert REL); reflexivity|intros []; rewrite ?(rel_dassert REL); reflexivity].
  intros d d' Hd. rewrite !bind_assoc. pose proof (mp_len_nonneg t). pose proof (mp_len_nonneg n).
  eapply ct_bind.
  { apply rct_mod_lsh; auto; [lia|]. unfold ct_montgomery_radix_shift_len.
    pose proof (align_rng (mp_len n) H0). lia. }
  intros [x r1] [x' r1'] [H1 H2]. cbn [fst snd] in *.
  destruct x, x'; cbn in H1; try tauto.
  - rewrite !bind_ret. apply ct_ret. auto.
  - rewrite !(rel_dassert REL). apply ct_part_l. reflexivity.
Qed.
Lemma rct_neg_inv : forall n n', same_shape n n' ->
  ct (fun _ _ => True) (okd (ct_montgomery_neg_n0_inv_mod_l_mp n)) (okd (ct_montgomery_neg_n0_inv_mod_l_mp n')).
Proof.
  intros n n' Hn. unfold ct_montgomery_neg_n0_inv_mod_l_mp.
  apply okd_mif; intros _ _.
  eapply okd_bind; [ct_leaf fail|]. intros x x' _.
  eapply okd_bind; [ct_leaf fail|]. intros y y' _. apply okd_mif; intros _ _.
  eapply okd_bind; [ct_leaf fail|]. intros z z' _. apply ct_ret. auto.
Qed.
Definition ok4 {A E T X Y} (m : M (result A E * T * X * Y)) : M (T * X * Y) :=
  let! r := m in match r with (Ok _, t, x, y) => ret (t, x, y) | _ => panic end.
Lemma ok4_mif : forall A E T X Y (R : T * X * Y -> T * X * Y -> Prop) (b b' : bool) (e e' : E) t t' x x' y y' (k k' : M (result A E * T * X * Y)),
  (b = false -> b' = false -> ct R (ok4 k) (ok4 k')) ->
  ct R (ok4 (mif b then ret (Err e, t, x, y) else k)) (ok4 (mif b' then ret (Err e', t', x', y') else k')).
Proof.
  intros A E T X Y R b b' e e' t t' x x' y y' k k' H. unfold ok4. rewrite !bind_assoc.
  destruct b; [apply ct_part_l; reflexivity|]. destruct b'; [apply ct_part_r; reflexivity|].
  apply ct_tick; auto.
Qed.
Lemma ok4_bind : forall Z0 A E T X Y (P : Z0 -> Z0 -> Prop) (R : T * X * Y -> T * X * Y -> Prop) m m' (k k' : Z0 -> M (result A E * T * X * Y)),
  ct P m m' -> (forall x y, P x y -> ct R (ok4 (k x)) (ok4 (k' y))) -> ct R (ok4 (bind m k)) (ok4 (bind m' k')).
Proof.
  intros Z0 A E T X Y P R m m' k k' H H1. unfold ok4. rewrite !bind_assoc. eapply ct_bind; eauto.
Qed.
Lemma ok4_okm : forall A' E' T' A E T X Y (P : T' -> T' -> Prop) (R : T * X * Y -> T * X * Y -> Prop)
  (m m' : M (result A' E' * T')) (k k' : T' -> M (result A E * T * X * Y)),
  ct P (okm m) (okm m') -> (forall x y, P x y -> ct R (ok4 (k x)) (ok4 (k' y))) ->
  ct R (ok4 (let! r := m in let! t := unwrap r in k t)) (ok4 (let! r := m' in let! t := unwrap r in k' t)).
Proof.
  intros A' E' T' A E T X Y P R m m' k k' H H1. rewrite <- !bind_assoc. eapply ok4_bind; eauto.
Qed.
Lemma rct_exp : forall r r' a a' n n' e e' k s s', same_shape r r' -> same_shape a a' -> same_shape n n' ->
  mp_ok n -> mp_ok n' -> same_blen n n' -> same_shape e e' -> zlen s' = zlen s ->
  ct drel (ok4 (ct_exp_mod_odd_mp_mp r a n e k s)) (ok4 (ct_exp_mod_odd_mp_mp r' a' n' e' k s')).
Proof.
  intros r r' a a' n n' e e' k s s' Hr Ha Hn On On' HL He Hs. unfold ct_exp_mod_odd_mp_mp.
  eapply ok4_bind; [apply rct_compat_t; auto; symmetry; apply shape_len; auto|]. intros z z' _. apply ok4_mif; intros _ _.
  eapply ok4_bind; [apply rct_compat_t; auto; symmetry; apply shape_len; auto|]. intros w w' _. apply ok4_mif; intros _ _.
  rewrite ?(rel_dassert_lt REL).
  eapply ok4_bind; [apply rct_compat_t; auto; symmetry; apply shape_len; auto|]. intros v v' _. apply ok4_mif; intros _ _.
  rewrite ?(rel_dassert REL). apply ok4_mif; intros _ _.
  unfold ok4 at 1 2. rewrite !bind_assoc.
  eapply ct_okd; [apply rct_neg_inv; auto| |reflexivity|reflexivity]. intros g g' _.
  match goal with |- ct _ (bind ?m _) (bind ?m' _) => change (ct drel (ok4 m) (ok4 m')) end.
  rewrite (shape_len n n' Hn).
  eapply ok4_bind; [ct_leaf fail|]. intros rf rf' Hrf. ct_norm.
  eapply ok4_bind; [apply rct_shrink_to; auto|]. intros r0 r0' Hr0. ct_norm.
  rewrite !(rel_dassert REL).
  eapply ok4_okm; [apply rct_radix2; auto|]. intros r1 r1' H1.
  assert (Hs' : same_shape (NE s) (NE s')) by (apply shape_ne; auto).
  eapply ok4_bind; [ct_leaf fail|]. intros sf sf' Hsf. ct_norm.
  eapply ok4_bind; [apply rct_shrink_to; auto|]. intros s0 s0' Hs0. ct_norm.
  eapply ok4_okm; [apply rct_to_form; auto|]. intros s1 s1' H2.
  eapply ok4_bind; [ct_leaf fail|]. intros a1 a1' Ha1. ct_norm.
  assert (HU : same_shape (mp_unshrink sf s1) (mp_unshrink sf' s1')) by (apply shape_unshrink; auto).
  apply shape_inv in HU. destruct (mp_unshrink sf s1), (mp_unshrink sf' s1'); try tauto; try (apply ct_part_l; reflexivity).
  eapply ok4_okm; [apply rct_redc; auto|]. intros r2 r2' H3.
  eapply ok4_bind; [apply rct_exp_loop; eauto|]. intros [r3 s3] [r3' s3'] [H4 H5]. cbn [fst snd] in *.
  change (same_shape r3 r3') in H4.
  eapply ok4_okm; [apply rct_redc; auto|]. intros r4 r4' H6.
  apply ct_ret. split; [split|]; cbn [fst snd]; auto. apply shape_unshrink; auto.
Qed.
End Mont.
