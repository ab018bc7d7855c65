(** The greatest common divisor runs in constant time. *)
From Coq Require Import ZArith List Bool Lia.
Require Import Verif.Spec Verif.Monad Verif.Base Verif.Wp Verif.BufFacts3 Verif.ModelLimb Verif.ModelBuf Verif.SpecBuf Verif.LimbFacts Verif.LimbFacts2 Verif.BufFacts Verif.BufFacts2
  Verif.ModelCmp Verif.ModelAdd Verif.ModelShift Verif.ModelMul Verif.ModelDiv Verif.ModelMont Verif.ModelEuclid Verif.ModelInv Verif.ModelLcm Verif.ModelPrime
  Verif.Ct Verif.CtLimb Verif.CtBuf Verif.CtArith Verif.CtDiv Verif.CtMont Verif.CtShift.
Import ListNotations.
Open Scope Z_scope.

(** The transition matrices and the state of their application are secret. *)
#[global] Instance DRel_trow : DRel trow := fun _ _ => True.
#[global] Instance DRel_tmat : DRel tmat := fun _ _ => True.
#[global] Instance DRel_rowst : DRel rowst := fun _ _ => True.

Section Gcd.
Context {c : cfg} {o : obs}.
Hypothesis REL : debug c = false.

Lemma rct_push_entry : forall a b d e f g a' b' d' e' f' g', ct drel (push_entry a b d e f g) (push_entry a' b' d' e' f' g').
Proof. intros. unfold push_entry. ct_auto. Qed.
#[local] Hint Resolve rct_push_entry : ct.
Lemma rct_push : forall m k g m' k' g', ct drel (push_transition m k g) (push_transition m' k' g').
Proof.
  intros [[a0 b0 s0] [a1 b1 s1]] k g [[a0' b0' s0'] [a1' b1' s1']] k' g'. unfold push_transition. ct_auto.
Qed.
#[local] Hint Resolve rct_push rct_lc_new : ct.
Lemma rct_batch_step : forall s s', drel s s' -> ct drel (batch_step s) (batch_step s').
Proof. intros s s' H. ct_norm. unfold batch_step. ct_auto. Qed.
#[local] Hint Resolve rct_batch_step : ct.
Lemma rct_batch : forall d f g d' f' g', ct drel (batch_divsteps d f g) (batch_divsteps d' f' g').
Proof.
  intros. unfold batch_divsteps. rewrite !(rel_dassert REL).
  eapply ct_bind.
  { apply ct_for with (R := drel); auto; [repeat split|]. intros. apply rct_batch_step. auto. }
  intros. ct_norm. ct_auto.
Qed.
Lemma rct_row_neg : forall r r', ct drel (row_neg_mask r) (row_neg_mask r').
Proof. intros. unfold row_neg_mask. ct_auto. Qed.
#[local] Hint Resolve rct_row_neg : ct.
Lemma rct_neg_mask : forall m m', ct drel (t_is_neg_mask m) (t_is_neg_mask m').
Proof. intros. unfold t_is_neg_mask. ct_auto. Qed.
Lemma rct_row_limb : forall s u v t n s' u' v' t' n', ct drel (mat_mul_row_compute_limb s u v t n) (mat_mul_row_compute_limb s' u' v' t' n').
Proof. intros. unfold mat_mul_row_compute_limb. ct_auto. Qed.
Lemma rct_row_shift : forall s m l v s' m' l' v', ct drel (row_shift_limb s m l v) (row_shift_limb s' m' l' v').
Proof. intros. unfold row_shift_limb. ct_auto. Qed.
Lemma rct_row_smask : forall s s', ct drel (row_shift_mask s) (row_shift_mask s').
Proof. intros. unfold row_shift_mask. ct_auto. Qed.
#[local] Hint Resolve rct_batch rct_neg_mask rct_row_limb rct_row_shift rct_row_smask : ct.

Lemma rct_apply : forall m k a f b g m' k' a' f' b' g', same_shape f f' -> same_shape g g' ->
  ct drel (apply_to_f_g m k a f b g) (apply_to_f_g m' k' a' f' b' g').
Proof.
  intros m k a f b g m' k' a' f' b' g' Hf Hg. unfold apply_to_f_g. ct_auto.
Qed.
#[local] Hint Resolve rct_apply : ct.


Ltac ctb := eapply ct_bind; [ct_leaf fail | intros ? ? ?; ct_norm]; rewrite ?(rel_dassert REL), ?(rel_dassert_m REL).
Ltac ctr := apply ct_ret; ct_rel.
Lemma rct_gcd_ext : forall X `{DRel X} (u u' : tmat -> (Z * Z) * (Z * Z) -> X -> M X) f f' g g' e e',
  (forall m k x m' k' x', drel x x' -> ct drel (u m k x) (u' m' k' x')) ->
  same_shape f f' -> same_shape g g' -> drel e e' ->
  ct drel (ct_gcd_ext_odd_mp_mp u f g e) (ct_gcd_ext_odd_mp_mp u' f' g' e').
Proof.
  intros X DX u u' f f' g g' e e' Hu Hf Hg He. unfold ct_gcd_ext_odd_mp_mp. cbv zeta.
  rewrite !(rel_dassert REL), !(rel_dassert_m REL).
  eapply ct_bind; [apply ct_refl; ct_pub|]. intros nb ? <-.
  eapply ct_bind; [apply ct_refl; ct_pub|]. intros h ? <-.
  eapply ct_bind; [ct_leaf fail|]. intros fh fh' _.
  eapply ct_bind; [ct_leaf fail|]. intros gh gh' _.
  eapply ct_bind.
  { apply ct_for with (R := drel); auto.
    { split; [ct_rel|exact He]. }
    intros i s s' _ Hs.
    destruct s as [s e1], s' as [s' e1']. destruct Hs as [Hs He1]. cbn [fst snd] in Hs, He1.
    ct_norm. do 4 ctb. 
    eapply ct_bind; [apply Hu; exact He1|]. intros v v' Hv.
    apply ct_ret. split; [ct_rel|exact Hv]. }
  intros s s' Hs.
  destruct s as [s e1], s' as [s' e1']. destruct Hs as [Hs He1]. cbn [fst snd] in Hs, He1.
  ct_norm. rewrite !(rel_dassert REL). ctb. 
  eapply ct_bind.
  { apply ct_for with (R := fun _ _ => True); auto; [ct_pub|]. intros. unfold dassert_m. rewrite REL. apply ct_ret. auto. }
  intros _ _ _. rewrite ?(rel_dassert REL). do 5 ctb.
  apply ct_ret. split; [ct_rel|exact He1].
Qed.

(** Runs that end with an error are left out of the comparison. *)
Hypothesis PART : strict = false.
Definition is_ok {A E} (r : result A E) : bool := match r with Ok _ => true | Err _ => false end.
Section Okg.
Context {X : Type} (f : X -> bool).
Definition okg (m : M X) : M X := let! x := m in if f x then ret x else panic.
Lemma okg_mif : forall (R : X -> X -> Prop) (b b' : bool) x x' (k k' : M X), f x = false -> f x' = false ->
  (b = false -> b' = false -> ct R (okg k) (okg k')) ->
  ct R (okg (mif b then ret x else k)) (okg (mif b' then ret x' else k')).
Proof.
  intros R b b' x x' k k' F F' H. unfold okg. rewrite !bind_assoc.
  destruct b; [apply ct_part_l; [exact PART|]; cbn; rewrite F; reflexivity|].
  destruct b'; [apply ct_part_r; [exact PART|]; cbn; rewrite F'; reflexivity|].
  apply ct_tick; auto.
Qed.
Lemma okg_bind : forall Y (P : Y -> Y -> Prop) (R : X -> X -> Prop) m m' (k k' : Y -> M X),
  ct P m m' -> (forall x y, P x y -> ct R (okg (k x)) (okg (k' y))) -> ct R (okg (bind m k)) (okg (bind m' k')).
Proof.
  intros Y P R m m' k k' H H1. unfold okg. rewrite !bind_assoc. eapply ct_bind; eauto.
Qed.
Lemma okg_bind_r : forall Y (P : Y -> Y -> Prop) (R : X -> X -> Prop) m m' (k k' : Y -> M X),
  ct P m m' -> (forall x y, P x y -> returns m x -> returns m' y -> ct R (okg (k x)) (okg (k' y))) -> ct R (okg (bind m k)) (okg (bind m' k')).
Proof.
  intros Y P R m m' k k' H H1. unfold okg. rewrite !bind_assoc. eapply ct_bind_r; eauto.
Qed.
Lemma okg_ret : forall (R : X -> X -> Prop) x x', R x x' -> ct R (okg (ret x)) (okg (ret x')).
Proof.
  intros R x x' H. unfold okg. rewrite !bind_ret. 
  destruct (f x); [|apply ct_part_l; [exact PART|reflexivity]]. destruct (f x'); [|apply ct_part_r; [exact PART|reflexivity]].
  apply ct_ret. auto.
Qed.
Lemma okg_panic_l : forall (R : X -> X -> Prop) m m', snd m = None -> ct R (okg m) (okg m').
Proof. intros R [t [a|]] m' H; try discriminate. apply ct_part_l; [exact PART|reflexivity]. Qed.
Lemma okg_panic_r : forall (R : X -> X -> Prop) m m', snd m' = None -> ct R (okg m) (okg m').
Proof. intros R m [t [a|]] H; try discriminate. apply ct_part_r; [exact PART|reflexivity]. Qed.
Lemma okg_err_l : forall (R : X -> X -> Prop) x m', f x = false -> ct R (okg (ret x)) (okg m').
Proof. intros R x m' H. apply ct_part_l; [exact PART|]. cbn. rewrite H. reflexivity. Qed.
Lemma okg_err_r : forall (R : X -> X -> Prop) x m, f x = false -> ct R (okg m) (okg (ret x)).
Proof. intros R x m H. apply ct_part_r; [exact PART|]. unfold okg. rewrite bind_ret, H. reflexivity. Qed.
(** Both length checks of the functions taking a pair of operands. *)
Lemma okg_compat : forall (R : X -> X -> Prop) a a' b b' x x' (k k' : M X), same_shape a a' -> same_shape b b' -> f x = false -> f x' = false ->
  ct R (okg k) (okg k') ->
  ct R (okg (let! c0 := len_is_compatible_with a (mp_len b) in
             let! bad := (mif negb c0 then ret true else let! c1 := len_is_compatible_with b (mp_len a) in ret (negb c1)) in
             mif bad then ret x else k))
       (okg (let! c0 := len_is_compatible_with a' (mp_len b') in
             let! bad := (mif negb c0 then ret true else let! c1 := len_is_compatible_with b' (mp_len a') in ret (negb c1)) in
             mif bad then ret x' else k')).
Proof.
  intros R a a' b b' x x' k k' Ha Hb F F' H.
  eapply okg_bind; [apply rct_compat_t; [exact REL|exact Ha|symmetry; apply shape_len; exact Hb]|]. intros z z' _.
  destruct z; [|apply ct_part_l; [exact PART|]; cbn; rewrite F; reflexivity].
  destruct z'; [|apply ct_part_r; [exact PART|]; cbn; rewrite F'; reflexivity].
  cbn [negb]. eapply okg_bind with (P := fun _ _ => True).
  { apply ct_tick; auto. eapply ct_bind; [apply rct_compat_t; [exact REL|exact Hb|symmetry; apply shape_len; exact Ha]|]. intros. apply ct_ret. auto. }
  intros w w' _. apply okg_mif; auto.
Qed.
Lemma okg_compat_n : forall (R : X -> X -> Prop) a a' b b' x x' (k k' : M X), same_shape a a' -> b' = b -> f x = false -> f x' = false ->
  ct R (okg k) (okg k') ->
  ct R (okg (let! c0 := len_is_compatible_with a b in mif negb c0 then ret x else k))
       (okg (let! c0 := len_is_compatible_with a' b' in mif negb c0 then ret x' else k')).
Proof.
  intros R a a' b b' x x' k k' Ha Hb F F' H.
  eapply okg_bind; [apply rct_compat_t; [exact REL|exact Ha|auto]|]. intros z z' _. apply okg_mif; auto.
Qed.
(** Going on after a success of an inner call. *)
Lemma okg_inner : forall Y (g : Y -> bool) (P : Y -> Y -> Prop) (R : X -> X -> Prop) m m' (k k' : Y -> M X),
  (forall y, g y = false -> forall w, snd (k y) = Some w -> f w = false) ->
  (forall y, g y = false -> forall w, snd (k' y) = Some w -> f w = false) ->
  ct P (let! x := m in if g x then ret x else panic) (let! x := m' in if g x then ret x else panic) ->
  (forall x y, P x y -> g x = true -> g y = true -> ct R (okg (k x)) (okg (k' y))) -> ct R (okg (bind m k)) (okg (bind m' k')).
Proof.
  intros Y g P R [t [a|]] [t' [a'|]] k k' G G' H H1; try solve [apply ct_part_l; [exact PART|reflexivity]|apply ct_part_r; [exact PART|reflexivity]].
  destruct (g a) eqn:Ga; destruct (g a') eqn:Ga'.
  - specialize (H1 a a'). unfold okg. rewrite !bind_assoc.
    unfold ct, bind in H. cbn in H. rewrite Ga, Ga' in H. cbn in H. rewrite !app_nil_r in H. destruct H as [H2 H3].
    apply ct_bind with (R := fun x y => x = a /\ y = a'); [split; auto|]. intros x y [-> ->]. apply H1; auto.
  - apply ct_part_r; [exact PART|]. unfold okg. specialize (G' a' Ga'). unfold bind. cbn. destruct (k' a') as [u' [v'|]]; cbn; auto.
    rewrite (G' v' eq_refl). reflexivity.
  - apply ct_part_l; [exact PART|]. unfold okg. specialize (G a Ga). unfold bind. cbn. destruct (k a) as [u [v|]]; cbn; auto.
    rewrite (G v eq_refl). reflexivity.
  - apply ct_part_l; [exact PART|]. unfold okg. specialize (G a Ga). unfold bind. cbn. destruct (k a) as [u [v|]]; cbn; auto.
    rewrite (G v eq_refl). reflexivity.
Qed.
End Okg.

Definition ok_3 {A E X Y} (x : result A E * X * Y) : bool := is_ok (fst (fst x)).
Definition ok_1 {A E} (x : result A E) : bool := is_ok x.
Definition ok_5 {A E X Y V U} (x : result A E * X * Y * V * U) : bool := is_ok (fst (fst (fst (fst x)))).

Ltac okb := eapply okg_bind; [ct_leaf fail | intros ? ? ?; ct_norm]; rewrite ?(rel_dassert REL), ?(rel_dassert_m REL), ?(rel_dassert_lt REL).
Ltac oki := apply okg_mif; [reflexivity|reflexivity|]; intros _ _.
Lemma rct_gcd_odd : forall f f' g g', same_shape f f' -> same_shape g g' ->
  ct drel (okg ok_3 (ct_gcd_odd_mp_mp f g)) (okg ok_3 (ct_gcd_odd_mp_mp f' g')).
Proof.
  intros f f' g g' Hf Hg. unfold ct_gcd_odd_mp_mp.
  okb. oki. apply okg_compat; auto.
  eapply okg_bind; [apply rct_gcd_ext; [|exact Hf|exact Hg|exact I]; intros; ct_auto|]. intros ? ? ?. ct_norm. cbv zeta.
  do 6 okb. apply okg_ret. ct_rel.
Qed.

(** ** Inversion modulo odd numbers *)
Lemma rct_redc_start_any : forall e e' a b k a' b' k', ct drel (redc_start e a b k) (redc_start e' a' b' k').
Proof. intros. unfold redc_start, redc_rshift_lo. ct_auto. Qed.
Lemma rct_redc_finish_tw : forall k k' a a', ct drel (redc_finish_in_twos_complement k a) (redc_finish_in_twos_complement k' a').
Proof. intros. unfold redc_finish_in_twos_complement, redc_lshift_hi. ct_auto. Qed.
#[local] Hint Resolve rct_redc_start_any rct_redc_finish_tw rct_redc_update : ct.
Lemma rct_mod_start : forall u t a b u' t' a' b', ct drel (mod_row_start u t a b) (mod_row_start u' t' a' b').
Proof. intros. unfold mod_row_start. ct_auto. Qed.
Lemma rct_mod_sub : forall u t a b u' t' a' b', ct drel (mod_row_sub u t a b) (mod_row_sub u' t' a' b').
Proof. intros. unfold mod_row_sub. ct_auto. Qed.
#[local] Hint Resolve rct_mod_start rct_mod_sub : ct.
Lemma rct_mod_limb : forall u t a b d e f u' t' a' b' d' e' f', ct drel (mod_row_limb u t a b d e f) (mod_row_limb u' t' a' b' d' e' f').
Proof. intros. unfold mod_row_limb. ct_auto. Qed.
Lemma rct_mod_head : forall u t a u' t' a', ct drel (mod_row_head u t a) (mod_row_head u' t' a').
Proof. intros. unfold mod_row_head. ct_auto. Qed.
Lemma rct_store_high : forall u u' i i' v v', same_shape u u' -> i = i' -> ct drel (store_high_masked u i v) (store_high_masked u' i' v').
Proof. intros u u' i i' v v' H <-. unfold store_high_masked. ct_auto. Qed.
#[local] Hint Resolve rct_mod_limb rct_mod_head rct_store_high : ct.
Lemma rct_into_range : forall u u' a b a' b' n n', same_shape u u' -> same_shape n n' -> ct drel (u_i_into_range u a b n) (u_i_into_range u' a' b' n').
Proof. intros u u' a b a' b' n n' H H1. unfold u_i_into_range. ct_auto. Qed.
#[local] Hint Resolve rct_into_range : ct.
Lemma rct_apply_mod : forall m k u v n g m' k' u' v' n' g', same_shape u u' -> same_shape v v' -> same_shape n n' ->
  ct drel (apply_to_mod_odd_n m k u v n g) (apply_to_mod_odd_n m' k' u' v' n' g').
Proof.
  intros m k u v n g m' k' u' v' n' g' Hu Hv Hn. unfold apply_to_mod_odd_n. destruct k, k'.
  rewrite ?(rel_dassert REL), ?(rel_dassert_lt REL). cbv zeta.
  rewrite ?(rel_dassert REL), ?(rel_dassert_lt REL). rewrite ?(rel_dassert REL), ?(rel_dassert_lt REL). ct_auto.
Qed.

#[local] Hint Resolve rct_apply_mod rct_shrink_to : ct.
Lemma rct_neg_inv_g : forall n n', same_shape n n' ->
  ct drel (okg ok_1 (ct_montgomery_neg_n0_inv_mod_l_mp n)) (okg ok_1 (ct_montgomery_neg_n0_inv_mod_l_mp n')).
Proof.
  intros n n' H. unfold ct_montgomery_neg_n0_inv_mod_l_mp. oki. okb. okb. oki. okb. apply okg_ret. ct_rel.
Qed.
Lemma rct_not_one : forall k i f f' e m e' m', same_shape f f' ->
  ct drel (let! x := gcd_not_one k i f e m in if negb x then ret x else panic) (let! x := gcd_not_one k i f' e' m' in if negb x then ret x else panic).
Proof.
  induction k; intros i f f' e m e' m' H; cbn [gcd_not_one].
  - cbn. apply ct_ret. reflexivity.
  - rewrite !bind_assoc. eapply ct_bind; [apply rct_load_l_full; auto|]. intros v v' _. rewrite !bind_assoc.
    destruct (negb (v =? e)); [apply ct_part_l; [exact PART|reflexivity]|].
    destruct (negb (v' =? e')); [apply ct_part_r; [exact PART|reflexivity]|]. apply ct_tick; auto.
Qed.
Lemma rct_limbs_of : forall a b, same_shape a b -> ct drel (limbs_of a) (limbs_of b).
Proof.
  intros a b H. pose proof (shape_inv a b H). unfold limbs_of. destruct a, b; try tauto; try apply ct_panic. apply ct_ret. auto.
Qed.
#[local] Hint Resolve rct_limbs_of : ct.
#[local] Hint Extern 1 (same_shape (mp_unshrink _ _) _) => apply shape_unshrink; eassumption : ct.
Lemma rct_inv_odd_impl : forall r r' a a' n n' s s' t t', same_shape r r' -> same_shape a a' -> same_shape n n' -> zlen s' = zlen s -> zlen t' = zlen t ->
  ct drel (okg ok_5 (ct_inv_mod_odd_mp_mp_impl r a n s t)) (okg ok_5 (ct_inv_mod_odd_mp_mp_impl r' a' n' s' t')).
Proof.
  intros r r' a a' n n' s s' t t' Hr Ha Hn Hs Ht. unfold ct_inv_mod_odd_mp_mp_impl.
  apply okg_compat_n; auto; [apply shape_len; auto|]. apply okg_compat; auto. cbv zeta. oki. oki.
  assert (Hs' : same_shape (NE s) (NE s')) by (apply shape_ne; auto).
  assert (Ht' : same_shape (NE t) (NE t')) by (apply shape_ne; auto).
  eapply okg_inner with (g := ok_1); [intros [?|?] E; [discriminate|]; intros w [= <-]; reflexivity|intros [?|?] E; [discriminate|]; intros w [= <-]; reflexivity|apply rct_neg_inv_g; exact Hn|].
  intros [g|e] [g'|e'] _ E E'; try discriminate. clear E E'.
  okb. okb. okb. okb. okb. okb. okb. okb. okb.
  eapply okg_bind; [apply rct_gcd_ext; [|eauto|eauto|split; cbn [fst snd]; eauto]|].
  { intros k1 k2 [u1 u2] k1' k2' [u1' u2'] [H1' H2']. apply rct_apply_mod; auto. }
  intros ? ? ?. ct_norm.
  okb. okb. cbv zeta. rewrite (shape_nlimbs n n' Hn).
  eapply okg_inner with (g := negb); [intros [|] E; [|discriminate]; intros w [= <-]; reflexivity|intros [|] E; [|discriminate]; intros w [= <-]; reflexivity|apply rct_not_one; auto|].
  intros [|] [|] _ E E'; try discriminate. clear E E'. rewrite ?(rel_dassert_m REL).
  okb. apply okg_ret. ct_rel. apply shape_unshrink; auto.
Qed.
Lemma rct_inv_odd : forall r r' a a' n n' s s' t t', same_shape r r' -> same_shape a a' -> same_shape n n' -> zlen s' = zlen s -> zlen t' = zlen t ->
  ct drel (okg ok_5 (ct_inv_mod_odd_mp_mp r a n s t)) (okg ok_5 (ct_inv_mod_odd_mp_mp r' a' n' s' t')).
Proof.
  intros r r' a a' n n' s s' t t' Hr Ha Hn Hs Ht. unfold ct_inv_mod_odd_mp_mp.
  eapply okg_inner with (g := ok_5); [| |apply rct_inv_odd_impl; auto|].
  1,2: intros [[[[[?|?] ?] ?] ?] ?] E w; [discriminate|intros [= <-]; reflexivity].
  intros [[[[[?|?] ?] ?] ?] ?] [[[[[?|?] ?] ?] ?] ?] HH E E'; try discriminate. 
  destruct HH as [[[[_ H1] H2] H3] H4]. cbn [fst snd] in *. ct_norm.
  okb. oki. apply okg_ret. ct_rel.
Qed.

(** ** Inversion modulo powers of two *)
Lemma rct_double_sub : forall r r' t t' n, same_shape r r' -> same_shape t t' -> ct drel (inv_pow2_double_sub r t n) (inv_pow2_double_sub r' t' n).
Proof. intros r r' t t' n H H1. unfold inv_pow2_double_sub. ct_auto. Qed.
#[local] Hint Resolve rct_double_sub : ct.
Lemma rct_pow2_step : forall r r' t t' a a' k l, same_shape r r' -> same_shape t t' -> same_shape a a' ->
  ct (fun x y => drel (fst x) (fst y) /\ snd x = snd y) (inv_pow2_step r t a k l) (inv_pow2_step r' t' a' k l).
Proof.
  intros r r' t t' a a' k l Hr Ht Ha. unfold inv_pow2_step. cbv zeta.
  do 5 ctb. apply ct_ret. split; cbn [fst snd]; auto. ct_rel.
Qed.
Lemma rct_pow2_loop : forall fuel r r' t t' a a' k m l, same_shape r r' -> same_shape t t' -> same_shape a a' ->
  ct drel (inv_pow2_loop fuel r t a k m l) (inv_pow2_loop fuel r' t' a' k m l).
Proof.
  induction fuel; intros r r' t t' a a' k m l Hr Ht Ha; cbn [inv_pow2_loop]; (apply ct_tick; [reflexivity|]; apply ct_if; auto; intros _; [|ctr]).
  - apply ct_panic.
  - eapply ct_bind; [apply rct_pow2_step; eauto|]. intros [[r1 t1] k1] [[r1' t1'] k1'] [[H1 H2] H3]. cbn [fst snd] in *. subst. apply IHfuel; auto.
Qed.
Lemma rct_inv_pow2 : forall r r' a a' p p' m s s', same_shape r r' -> same_shape a a' -> zlen s' = zlen s ->
  ct drel (ct_inv_mod_pow2_mp r a p m s) (ct_inv_mod_pow2_mp r' a' p' m s').
Proof.
  intros r r' a a' p p' m s s' Hr Ha Hs. unfold ct_inv_mod_pow2_mp. cbv zeta.
  rewrite ?(rel_dassert REL), ?(rel_dassert_m REL). rewrite ?(rel_dassert REL), ?(rel_dassert_m REL).
  assert (Hs' : same_shape (NE s) (NE s')) by (apply shape_ne; auto).
  do 6 ctb. eapply ct_bind; [apply rct_pow2_loop; eauto|]. intros ? ? ?. ct_norm.
  ctb. ctb. ctr. apply shape_unshrink; auto.
Qed.

(** ** Primality tests *)
Lemma shape_refl : forall a, same_shape a a.
Proof. intros. split; auto. Qed.
Lemma rct_screen : forall p p' s s' t t', same_shape p p' -> zlen s' = zlen s -> zlen t' = zlen t ->
  ct drel (okg ok_1 (ct_composite_test_small_prime_gcd_mp p s t)) (okg ok_1 (ct_composite_test_small_prime_gcd_mp p' s' t')).
Proof.
  intros p p' s s' t t' Hp Hs Ht. unfold ct_composite_test_small_prime_gcd_mp.
  assert (Hs' : same_shape (NE s) (NE s')) by (apply shape_ne; auto).
  assert (Ht' : same_shape (NE t) (NE t')) by (apply shape_ne; auto).
  rewrite (shape_empty p p' Hp), (shape_len p p' Hp).
  eapply okg_bind; [apply ct_refl; reflexivity|]. intros _ _ _. destruct (mp_is_empty p).
  { okb. apply okg_ret. ct_rel. }
  cbv zeta. oki. oki. eapply okg_bind; [apply ct_refl; reflexivity|]. intros i ? <-.
  okb. okb.
  eapply okg_bind; [apply rct_copy_from; [exact REL|eauto|apply shape_refl] |]. intros ? ? ?. ct_norm.
  okb. okb.
  eapply okg_inner with (g := ok_3); [| |apply rct_gcd_odd; auto|].
  1,2: intros [[[?|?] ?] ?] E w; [discriminate|intros [= <-] || discriminate].
  intros [[[?|?] ?] ?] [[[?|?] ?] ?] HH E E'; try discriminate. clear E E'. destruct HH as [[_ H6] H7]. cbn [fst snd] in *. ct_norm.
  okb. okb. apply okg_ret. ct_rel.
Qed.
Lemma rct_mr_compare : forall b b' p p' m m', same_shape b b' -> same_shape p p' -> same_shape m m' ->
  ct drel (mr_compare b p m) (mr_compare b' p' m').
Proof. intros b b' p p' m m' H H1 H2. unfold mr_compare. ct_auto. Qed.
#[local] Hint Resolve rct_mr_compare : ct.
Lemma rct_mr_step : forall a a' p p' m m' g g' k k' i s s', same_shape a a' -> same_shape p p' -> same_shape m m' -> drel s s' ->
  ct drel (mr_step a p m g k i s) (mr_step a' p' m' g' k' i s').
Proof.
  intros a a' p p' m m' g g' k k' i s s' Ha Hp Hm Hs. ct_norm. unfold mr_step.
  eapply ct_okm; [apply rct_mg_mul; auto|]. intros s2 s2' H3.
  eapply ct_okm; [apply rct_mg_mul; auto|]. intros r2 r2' H4. cbv zeta.
  do 5 ctb. ctr.
Qed.
Lemma rct_mr : forall a a' p p' m m' s s' t t', same_shape a a' -> same_shape p p' -> same_shape m m' -> zlen s' = zlen s -> zlen t' = zlen t ->
  ct drel (okg ok_1 (ct_prime_test_miller_rabin_mp a p m s t)) (okg ok_1 (ct_prime_test_miller_rabin_mp a' p' m' s' t')).
Proof.
  intros a a' p p' m m' s s' t t' Ha Hp Hm Hs Ht. unfold ct_prime_test_miller_rabin_mp.
  assert (Hs' : same_shape (NE s) (NE s')) by (apply shape_ne; auto).
  assert (Ht' : same_shape (NE t) (NE t')) by (apply shape_ne; auto).
  okb. oki. apply okg_compat_n; auto; [apply shape_len; auto|]. rewrite ?(rel_dassert_lt REL).
  apply okg_compat_n; auto; [apply shape_len; auto|]. rewrite ?(rel_dassert_lt REL). cbv zeta. oki. oki.
  do 9 okb.
  eapply okg_inner with (g := ok_1); [| |apply rct_neg_inv_g; exact Hp|].
  1,2: intros [?|?] E w; [discriminate|rewrite ?(rel_dassert REL); intros [= <-]; reflexivity].
  intros [g|e] [g'|e'] _ E E'; try discriminate. clear E E'.
  eapply okg_bind.
  { apply ct_for_down with (R := drel); [reflexivity|ct_pub|ct_rel|]. intros i u u' _ Hu. apply rct_mr_step; auto. }
  intros ? ? ?. ct_norm. okb. apply okg_ret. ct_rel.
Qed.

End Gcd.

(** A partial logic: what holds of the result, if there is one. *)
Definition pw {A} (m : M A) (Q : A -> Prop) : Prop := forall x, returns m x -> Q x.
Lemma pw_ret : forall A (a : A) (Q : A -> Prop), Q a -> pw (ret a) Q.
Proof. intros A a Q H x E. injection E as <-. auto. Qed.
Lemma pw_panic : forall A (Q : A -> Prop), pw panic Q.
Proof. intros A Q x E. discriminate. Qed.
Lemma pw_bind : forall A C (m : M A) (f : A -> M C) (P : A -> Prop) (Q : C -> Prop),
  pw m P -> (forall a, P a -> pw (f a) Q) -> pw (bind m f) Q.
Proof.
  intros A C [t [a|]] f P Q H1 H x E; [|discriminate]. unfold returns, bind in E. cbn in E.
  apply (H a); [apply H1; reflexivity|]. destruct (f a); auto.
Qed.
Lemma pw_true : forall A (m : M A), pw m (fun _ => True).
Proof. intros A m x _. auto. Qed.
Lemma pw_skip : forall A C (m : M A) (f : A -> M C) (Q : C -> Prop), (forall a, pw (f a) Q) -> pw (bind m f) Q.
Proof. intros. eapply pw_bind; [apply pw_true|auto]. Qed.
Lemma pw_for : forall S (I : S -> Prop) f lo hi (s : S), I s -> (forall i s, I s -> pw (f i s) I) -> pw (zfor lo hi f s) I.
Proof.
  intros S I f lo hi s Hs H. unfold zfor. revert Hs. generalize (Z.to_nat (hi - lo)). intros n. revert lo s. induction n; intros lo s Hs; cbn [for_aux]; apply pw_skip; intros _.
  - apply pw_ret. auto.
  - eapply pw_bind; [apply H; auto|]. auto.
Qed.
Lemma pw_for_down : forall S (I : S -> Prop) f lo hi (s : S), I s -> (forall i s, I s -> pw (f i s) I) -> pw (zfor_down lo hi f s) I.
Proof.
  intros S I f lo hi s Hs H. unfold zfor_down. revert Hs. generalize (Z.to_nat (hi - lo)). intros n. revert s. induction n; intros s Hs; cbn [for_down_aux]; apply pw_skip; intros _.
  - apply pw_ret. auto.
  - eapply pw_bind; [apply H; auto|]. auto.
Qed.
Lemma pw_weaken : forall A (m : M A) (P Q : A -> Prop), pw m P -> (forall a, P a -> Q a) -> pw m Q.
Proof. intros A m P Q H H1 x E. auto. Qed.


(** Same encodings, componentwise. *)
Class KRel (A : Type) := krel : A -> A -> Prop.
#[global] Instance KRel_mp {c : cfg} : KRel mp := fun a b => kind_of b = kind_of a.
#[global] Instance KRel_prod {A C} `{KRel A} `{KRel C} : KRel (A * C) := fun p q => krel (fst p) (fst q) /\ krel (snd p) (snd q).
#[global] Instance KRel_any {A} : KRel A | 10 := fun _ _ => True.

Ltac pk_norm :=
  repeat match goal with
  | H : krel ?p ?q |- _ =>
    let T := type of p in
    lazymatch eval hnf in T with
    | mp => change (kind_of q = kind_of p) in H
    | (_ * _)%type => destruct H; cbn [fst snd] in *
    | _ => change True in H; clear H
    end
  | H : _ /\ _ |- _ => destruct H
  | p : (_ * _)%type |- _ => destruct p; cbn [fst snd] in *
  end.
Ltac pk_end :=
  cbn [fst snd];
  lazymatch goal with
  | |- krel ?p ?q =>
    let T := type of p in
    lazymatch eval hnf in T with
    | mp => change (kind_of q = kind_of p); first [reflexivity | congruence]
    | (_ * _)%type => split; pk_end
    | _ => exact I
    end
  | |- _ /\ _ => split; pk_end
  | |- True => exact I
  | |- _ => cbn [fst snd]; congruence
  end.
Create HintDb pk discriminated.
#[global] Hint Constants Opaque : pk.
#[global] Hint Variables Opaque : pk.
Ltac pk :=
  cbv beta zeta;
  lazymatch goal with
  | |- pw (bind (zfor _ _ _ ?s) _) _ =>
    eapply pw_bind; [apply pw_for with (I := krel s); [pk_end | intros ? ? ?; pk_norm; pk] | intros ? ?; pk_norm; pk]
  | |- pw (bind (zfor_down _ _ _ ?s) _) _ =>
    eapply pw_bind; [apply pw_for_down with (I := krel s); [pk_end | intros ? ? ?; pk_norm; pk] | intros ? ?; pk_norm; pk]
  | |- pw (bind (bind _ _) _) _ => rewrite bind_assoc; pk
  | |- pw (bind (if ?b then _ else _) _) _ => destruct b; pk
  | |- pw (bind (ret _) _) _ => rewrite bind_ret; pk
  | |- pw (bind _ _) _ =>
    first [ eapply pw_bind; [solve [eauto 2 with pk nocore] | intros ? ?; cbv beta iota in *; pk_norm; pk]
          | apply pw_skip; intros ?; pk_norm; pk ]
  | |- pw (if ?b then _ else _) _ => destruct b; pk
  | |- pw (match ?p with (_, _) => _ end) _ => destruct p; pk_norm; pk
  | |- pw (match ?p with Ok _ => _ | Err _ => _ end) _ => destruct p; pk
  | |- pw (ret _) _ => apply pw_ret; pk_end
  | |- pw panic _ => apply pw_panic
  | |- pw (zfor _ _ _ ?s) _ => eapply pw_weaken; [apply pw_for with (I := krel s); [pk_end | intros ? ? ?; pk_norm; pk] | intros; pk_norm; pk_end]
  | |- pw _ _ => first [eapply pw_weaken; [solve [eauto 2 with pk nocore] | intros ? ?; cbv beta iota in *; pk_norm; pk_end] | solve [intros ? ?; exact I] | idtac]
  | |- _ => idtac
  end.

Section Kind.
Context {c : cfg}.
Lemma pw_store_full : forall b i v, pw (store_l_full b i v) (krel b).
Proof. intros b i v. unfold store_l_full. destruct b; pk. Qed.
Lemma pw_store : forall b i v, pw (store_l b i v) (krel b).
Proof. intros b i v. unfold store_l. destruct b; pk. Qed.
#[local] Hint Resolve pw_store_full pw_store : pk.
Lemma pw_store_trunc : forall b i v, pw (store_trunc b i v) (krel b).
Proof. intros b i v. unfold store_trunc. pk. Qed.
Lemma pw_swap : forall a b k, pw (ct_swap_cond_mp a b k) (krel (a, b)).
Proof. intros a b k. unfold ct_swap_cond_mp. pk. Qed.
Lemma pw_bits_above : forall b i, pw (ct_clear_bits_above_mp b i) (krel b).
Proof. intros b i. unfold ct_clear_bits_above_mp. pk. Qed.
Lemma pw_bits_below : forall b i, pw (ct_clear_bits_below_mp b i) (krel b).
Proof. intros b i. unfold ct_clear_bits_below_mp. pk. Qed.
#[local] Hint Resolve pw_store_trunc pw_swap pw_bits_above pw_bits_below : pk.
Lemma pw_lshift : forall b i, pw (ct_lshift_mp b i) (fun x => krel b (fst x)).
Proof. intros b i. unfold ct_lshift_mp. pk. Qed.
Lemma pw_rshift : forall b i, pw (ct_rshift_mp b i) (fun x => krel b (fst x)).
Proof. intros b i. unfold ct_rshift_mp. pk. Qed.
Lemma pw_apply : forall m k u f v g, pw (apply_to_f_g m k u f v g) (krel (u, f, v, g)).
Proof. intros m k u f v g. unfold apply_to_f_g. pk. Qed.
#[local] Hint Resolve pw_lshift pw_rshift pw_apply : pk.
Lemma pw_gcd_ext : forall X u f g (e : X), pw (ct_gcd_ext_odd_mp_mp u f g e) (fun '(_, f', g', _) => krel (f, g) (f', g')).
Proof. intros X u f g e. unfold ct_gcd_ext_odd_mp_mp. pk. Qed.
#[local] Hint Resolve pw_gcd_ext : pk.
Lemma pw_gcd_odd : forall f g, pw (ct_gcd_odd_mp_mp f g) (fun '(_, f', g') => krel (f, g) (f', g')).
Proof. intros f g. unfold ct_gcd_odd_mp_mp. pk. Qed.
#[local] Hint Resolve pw_gcd_odd : pk.
Lemma pw_gcd : forall f g, pw (ct_gcd_mp_mp f g) (fun '(_, f', g') => krel (f, g) (f', g')).
Proof. intros f g. unfold ct_gcd_mp_mp. pk. Qed.
End Kind.
#[global] Hint Resolve pw_store_full pw_store pw_store_trunc pw_swap pw_bits_above pw_bits_below pw_lshift pw_rshift pw_apply pw_gcd_ext pw_gcd_odd pw_gcd : pk.

Lemma ct_pw : forall {o : obs} A (R : A -> A -> Prop) (P : A -> Prop) m m', ct R m m' -> pw m P -> ct (fun a b => R a b /\ P a) m m'.
Proof. intros o A R P [t [a|]] [t' [a'|]] H H1; unfold ct in *; cbn in *; auto. destruct H. split; auto. split; auto. apply H1. reflexivity. Qed.
Lemma pw_okg : forall X f (m : M X) P, pw m P -> pw (okg f m) P.
Proof. intros X f m P H. unfold okg. eapply pw_bind; [exact H|]. intros x Hx. cbn. destruct (f x); [apply pw_ret; auto|apply pw_panic]. Qed.

(** ** Greatest common divisors in general, where operands get shifted by a secret distance *)
Section Shifts.
Context {c : cfg} {o : obs}.
Hypothesis REL : debug c = false.
Hypothesis PART : strict = false.

(** Either the distances agree, or addresses aren't observed and the buffer consists of native limbs. *)
Definition sh_ok (a : mp) (s t : Z) : Prop := s = t \/ (forall i j, ob (ELoad i) = ob (ELoad j)) /\ kind_of a = KNE.
Lemma sh_ok_kind : forall a b s t, sh_ok a s t -> kind_of b = kind_of a -> sh_ok b s t.
Proof. intros a b s t [E|[H1 H2]] H; [left; auto|right; split; auto; congruence]. Qed.
Lemma rct_rshift_s : forall a b s t, same_shape a b -> sh_ok a s t -> ct drel (ct_rshift_mp a s) (ct_rshift_mp b t).
Proof.
  intros a b s t H [->|[H1 H2]]; [apply rct_rshift; auto|]. apply rct_rshift_any; auto. split; auto.
Qed.
Lemma rct_lshift_s : forall a b s t, same_shape a b -> sh_ok a s t -> ct drel (ct_lshift_mp a s) (ct_lshift_mp b t).
Proof.
  intros a b s t H [->|[H1 H2]]; [apply rct_lshift; auto|]. apply rct_lshift_any; auto. split; auto.
Qed.

(** The greatest power of two dividing both numbers, 0 if both are zero. *)
Definition min_twos (v w p : Z) : Prop :=
  v = 0 /\ w = 0 /\ p = 0 \/ (v <> 0 \/ w <> 0) /\ 0 <= p /\ forall k, 0 <= k -> (v mod 2 ^ k = 0 /\ w mod 2 ^ k = 0 <-> k <= p).
Lemma ffs_twos : forall v r k, is_ffs v r -> 0 <= k -> (v mod 2 ^ k = 0 <-> k <= r).
Proof.
  intros v r k (H0 & H1 & H2) Hk. pose proof (pow2_gt0 r H0). split; intros H3.
  - destruct (Z.le_gt_cases k r) as [L|L]; auto. exfalso.
    assert (E : (2 ^ (r + 1) | v)).
    { apply Z.divide_trans with (2 ^ k); [exists (2 ^ (k - r - 1)); rewrite <- Z.pow_add_r by lia; f_equal; lia|].
      apply Z.mod_divide; auto. pose proof (pow2_gt0 k). lia. }
    destruct E as [q ->]. rewrite Z.pow_add_r, Z.mul_assoc, (Z.mul_comm q), <- Z.mul_assoc, Z.mul_comm, Z.div_mul in H2 by lia.
    change (2 ^ 1) with 2 in H2. rewrite Z.mod_mul in H2; lia.
  - apply Z.mod_divide; [pose proof (pow2_gt0 k); lia|]. apply Z.divide_trans with (2 ^ r).
    + exists (2 ^ (r - k)). rewrite <- Z.pow_add_r by lia. f_equal. lia.
    + apply Z.mod_divide; [lia|auto].
Qed.
Lemma min_twos_unique : forall v w p v' w' p',
  (forall k, 0 <= k -> (v mod 2 ^ k = 0 /\ w mod 2 ^ k = 0 <-> v' mod 2 ^ k = 0 /\ w' mod 2 ^ k = 0)) ->
  min_twos v w p -> min_twos v' w' p' -> p = p'.
Proof.
  intros v w p v' w' p' H [(-> & -> & ->)|(_ & H0 & H1)] [(-> & -> & ->)|(_ & H0' & H1')]; auto.
  - exfalso. destruct (H (p' + 1)) as [H2 _]; [lia|]. rewrite H1' in H2 by lia. rewrite Z.mod_0_l in H2 by (pose proof (pow2_gt0 (p' + 1)); lia).
    assert (p' + 1 <= p') by auto. lia.
  - exfalso. destruct (H (p + 1)) as [_ H2]; [lia|]. rewrite H1 in H2 by lia. rewrite Z.mod_0_l in H2 by (pose proof (pow2_gt0 (p + 1)); lia).
    assert (p + 1 <= p) by auto. lia.
  - assert (A : p <= p') by (apply H1'; auto; apply H; auto; apply H1; lia).
    assert (A' : p' <= p) by (apply H1; auto; apply H; auto; apply H1'; lia). lia.
Qed.
Definition ffs_post (v : Z) (x : Z * Z) : Prop := v = 0 /\ x = (chc false, 0) \/ v <> 0 /\ fst x = chc true /\ is_ffs v (snd x).
Lemma wp_ffs_post : forall b, mp_ok b -> wp (ct_find_first_set_bit_mp b) (ffs_post (mpval b)).
Proof.
  intros b Hb. apply wp_find_first_set_bit; auto.
  - intros E. left. auto.
  - intros r E F. right. auto.
Qed.
Lemma ffs_range : forall b x, mp_ok b -> ffs_post (mpval b) x -> 0 <= snd x < 2 ^ UW.
Proof.
  intros b x Hb [[_ ->]|(_ & _ & F)]; cbn [snd]; [pose proof UW_gt; lia|].
  pose proof (mpval_bound b Hb) as B1. rewrite pow256 in B1 by apply mp_len_nonneg. pose proof (is_ffs_bound _ _ _ B1 F).
  destruct F as [H0 _]. destruct Hb as [_ Hb]. lia.
Qed.
Lemma min_select : forall a b x y, mp_ok a -> mp_ok b -> ffs_post (mpval a) x -> ffs_post (mpval b) y ->
  min_twos (mpval a) (mpval b)
    (lc_select_usize (lc_or (lc_not (fst x)) (lc_and (fst y) (chc (snd y <? snd x)))) (snd x) (snd y)).
Proof.
  intros a b [z n] [w m] Ha Hb Hx Hy. pose proof (ffs_range a _ Ha Hx). pose proof (ffs_range b _ Hb Hy). cbn [fst snd] in *.
  destruct Hx as [[Ea Ex]|(Ea & Ex & Fx)], Hy as [[Eb Ey]|(Eb & Ey & Fy)]; cbn [fst snd] in *; try (apply pair_equal_spec in Ex; destruct Ex as [-> ->]); try (apply pair_equal_spec in Ey; destruct Ey as [-> ->]); subst;
    rewrite !lc_not_chc, !lc_and_chc, lc_or_chc, lc_select_usize_chc by auto; cbn [negb andb orb]; rewrite ?Ea, ?Eb.
  - left. auto.
  - right. split; [auto|]. split; [apply Fy|]. intros k Hk. rewrite Z.mod_0_l by (pose proof (pow2_gt0 k); lia).
    rewrite (ffs_twos _ _ _ Fy Hk). tauto.
  - right. split; [auto|]. split; [apply Fx|]. intros k Hk. rewrite (Z.mod_0_l (2 ^ k)) by (pose proof (pow2_gt0 k); lia).
    rewrite (ffs_twos _ _ _ Fx Hk). tauto.
  - right. split; [auto|]. split; [destruct (m <? n); [apply Fy|apply Fx]|]. intros k Hk.
    rewrite (ffs_twos _ _ _ Fx Hk), (ffs_twos _ _ _ Fy Hk). destruct (Z.ltb_spec m n); lia.
Qed.

Ltac okb := eapply okg_bind; [ct_leaf fail | intros ? ? ?; ct_norm]; rewrite ?(rel_dassert REL), ?(rel_dassert_m REL), ?(rel_dassert_lt REL).
Ltac okr := eapply okg_bind_r; [ct_leaf fail | intros ? ? ?; ct_norm; intros ? ?]; rewrite ?(rel_dassert REL), ?(rel_dassert_m REL), ?(rel_dassert_lt REL).
Ltac oki := apply okg_mif; [exact PART|reflexivity|reflexivity|]; intros _ _.
Lemma rct_gcd : forall a a' b b', same_shape a a' -> same_shape b b' -> mp_ok a -> mp_ok a' -> mp_ok b -> mp_ok b' ->
  (forall p p', min_twos (mpval a) (mpval b) p -> min_twos (mpval a') (mpval b') p' -> sh_ok a p p' /\ sh_ok b p p') ->
  ct drel (okg ok_3 (ct_gcd_mp_mp a b)) (okg ok_3 (ct_gcd_mp_mp a' b')).
Proof.
  intros a a' b b' Ha Hb Oa Oa' Ob Ob' HS. unfold ct_gcd_mp_mp. oki. apply okg_compat; auto.
  eapply okg_bind; [apply ct_wp; [ct_leaf fail|apply wp_ffs_post; exact Oa|apply wp_ffs_post; exact Oa']|]. intros x x' (_ & X & X').
  pose proof (ffs_range a x Oa X) as RX. pose proof (ffs_range a' x' Oa' X') as RX'.
  destruct x as [z n], x' as [z' n']. cbn [snd] in RX, RX'.
  eapply okg_bind; [apply ct_wp; [ct_leaf fail|apply wp_ffs_post; exact Ob|apply wp_ffs_post; exact Ob']|]. intros y y' (_ & Y & Y').
  pose proof (ffs_range b y Ob Y) as RY. pose proof (ffs_range b' y' Ob' Y') as RY'. 
  pose proof (min_select a b _ _ Oa Ob X Y) as MS. pose proof (min_select a' b' _ _ Oa' Ob' X' Y') as MS'. destruct y as [w m], y' as [w' m'].
  cbn [fst snd] in *.
  rewrite !(rel_dassert REL).
  eapply okg_bind; [apply ct_wp with (P := fun r => r = chc (m <? n)) (P' := fun r => r = chc (m' <? n')); [ct_leaf fail|apply wp_lt_usize; auto|apply wp_lt_usize; auto]|].
  intros ? ? (_ & -> & ->). cbv zeta.
  destruct (HS _ _ MS MS') as [Sa Sb]. revert Sa Sb. clear MS MS' HS.
  set (p := lc_select_usize (lc_or (lc_not z) (lc_and w (chc (m <? n)))) n m).
  set (p' := lc_select_usize (lc_or (lc_not z') (lc_and w' (chc (m' <? n')))) n' m').
  set (q := lc_or (lc_not z) (lc_and w (chc (m <? n)))). set (q' := lc_or (lc_not z') (lc_and w' (chc (m' <? n')))). intros Sa Sb.
  eapply okg_bind_r; [apply rct_rshift_s; eauto|]. intros [a1 ?] [a1' ?] [Ha1 _] R1 _. cbn [fst] in Ha1. change (same_shape a1 a1') in Ha1.
  apply pw_rshift in R1. cbn [fst] in R1. change (kind_of a1 = kind_of a) in R1.
  eapply okg_bind; [apply rct_rshift_s; eauto|]. intros [b1 ?] [b1' ?] [Hb1 _]. cbn [fst] in Hb1. change (same_shape b1 b1') in Hb1.
  eapply okg_bind_r; [apply rct_swap_cond; eauto|]. intros [a2 b2] [a2' b2'] [Ha2 Hb2] R2 _. cbn [fst snd] in Ha2, Hb2. change (same_shape a2 a2') in Ha2. change (same_shape b2 b2') in Hb2.
  apply pw_swap in R2. destruct R2 as [R2 _]. cbn [fst] in R2. change (kind_of a2 = kind_of a1) in R2. rewrite ?(rel_dassert_m REL).
  eapply okg_bind; [apply rct_load_l; eauto|]. intros v v' _.
  eapply okg_bind_r; [apply rct_store_l; eauto|]. intros a3 a3' Ha3 R3 _. change (same_shape a3 a3') in Ha3.
  apply pw_store in R3. change (kind_of a3 = kind_of a2) in R3.
  eapply okg_inner with (g := ok_3); [exact PART| | |apply ct_pw; [apply rct_gcd_odd; eauto|apply pw_okg; apply pw_gcd_odd]|].
  1,2: intros [[[?|?] ?] ?] E u; [discriminate|intros E'; discriminate E'].
  intros [[[?|?] a4] b4] [[[?|?] a4'] b4'] [[[_ H4] H5] [R4 _]] E E'; try discriminate. clear E E'. cbn [fst snd] in *.
  change (same_shape a4 a4') in H4. change (same_shape b4 b4') in H5. change (kind_of a4 = kind_of a3) in R4.
  rewrite ?(rel_dassert_m REL), ?(rel_dassert REL). rewrite ?(rel_dassert_m REL), ?(rel_dassert REL).
  eapply okg_bind; [apply rct_lshift_s; [exact H4|apply sh_ok_kind with (a := a); [exact Sa|congruence]]|].
  intros [r5 ?] [r5' ?] [H6 _]. cbn [fst] in H6. change (same_shape r5 r5') in H6. apply okg_ret; auto. ct_rel.
Qed.

(** ** Inversion modulo arbitrary numbers *)
Lemma rct_inv : forall a a' n n' s s', same_shape a a' -> same_shape n n' -> mp_ok n -> mp_ok n' ->
  zlen (fst (fst (fst s'))) = zlen (fst (fst (fst s))) -> zlen (snd (fst (fst s'))) = zlen (snd (fst (fst s))) -> 
  zlen (snd (fst s')) = zlen (snd (fst s)) -> zlen (snd s') = zlen (snd s) ->
  (forall p p', is_ffs (mpval n) p -> is_ffs (mpval n') p' -> sh_ok n p p') ->
  ct drel (okg ok_3 (ct_inv_mod_mp_mp a n s)) (okg ok_3 (ct_inv_mod_mp_mp a' n' s')).
Proof.
  intros a a' n n' [[[s0 s1] s2] s3] [[[s0' s1'] s2'] s3'] Ha Hn On On' L0 L1 L2 L3 HS. cbn [fst snd] in *. unfold ct_inv_mod_mp_mp.
  assert (H0 : same_shape (NE s0) (NE s0')) by (apply shape_ne; auto).
  assert (H1 : same_shape (NE s1) (NE s1')) by (apply shape_ne; auto).
  oki. apply okg_compat_n; auto; [apply shape_len; auto|]. apply okg_compat_n; auto; [apply shape_len; auto|].
  okb. okb. okb. oki. cbv zeta. do 4 oki. do 4 okb.
  eapply okg_bind; [apply ct_wp; [ct_leaf fail|apply wp_ffs_post; exact On|apply wp_ffs_post; exact On']|]. intros [z p] [z' p'] (_ & X & X').
  apply okg_mif; [exact PART|reflexivity|reflexivity|]. intros Ez Ez'.
  assert (F : is_ffs (mpval n) p).
  { destruct X as [[_ X]|(_ & _ & X)]; [|exact X]. exfalso. apply pair_equal_spec in X. destruct X as [-> _]. rewrite lc_unwrap_chc in Ez. discriminate. }
  assert (F' : is_ffs (mpval n') p').
  { destruct X' as [[_ X']|(_ & _ & X')]; [|exact X']. exfalso. apply pair_equal_spec in X'. destruct X' as [-> _]. rewrite lc_unwrap_chc in Ez'. discriminate. }
  pose proof (HS _ _ F F') as Sn. clear HS X X' Ez Ez' F F'.
  eapply okg_bind; [apply ct_assert; exact PART|]. intros _ _ _.
  eapply okg_bind_r; [apply rct_rshift_s; [exact Hn|exact Sn]|]. intros [n1 ?] [n1' ?] [Hn1 _] R1 _. cbn [fst] in Hn1. change (same_shape n1 n1') in Hn1.
  apply pw_rshift in R1. cbn [fst] in R1. change (kind_of n1 = kind_of n) in R1.
  rewrite (shape_len _ _ Hn1).
  eapply okg_bind; [apply ct_refl; reflexivity|]. intros m m' ->.
  eapply okg_bind; [apply rct_inv_pow2; eauto|]. intros [u0 v0] [u0' v0'] [HH HH0]. cbn [fst snd] in HH, HH0. change (same_shape u0 u0') in HH. change (zlen v0' = zlen v0) in HH0.
  eapply okg_inner with (g := ok_5); [exact PART| | |apply rct_inv_odd_impl; eauto|].
  1,2: intros [[[[[?|e] ?] ?] ?] ?] E w; [discriminate|]; revert w; match goal with |- forall w, snd ?m = Some w -> @?Q w => change (pw m Q) end; apply pw_skip; intros [? ?]; destruct e; rewrite ?(rel_dassert REL); apply pw_ret; reflexivity.
  intros [[[[[?|?] u1] a1] v1] w1] [[[[[?|?] u1'] a1'] v1'] w1'] HH1 E E'; try discriminate. clear E E'.
  destruct HH1 as [[[[_ HH1] HH2] HH3] HH4]. cbn [fst snd] in *. change (same_shape u1 u1') in HH1. change (same_shape a1 a1') in HH2. change (zlen v1' = zlen v1) in HH3.
  eapply okg_bind; [apply rct_copy_from; eauto|]. intros t2 t2' Ht2. change (same_shape t2 t2') in Ht2.
  eapply okg_bind; [ct_leaf fail|]. intros [u2 ?] [u2' ?] [HH5 _]. cbn [fst] in HH5. change (same_shape u2 u2') in HH5.
  eapply okg_bind; [apply rct_inv_pow2; eauto|]. intros [u3 ?] [u3' ?] [HH6 _]. cbn [fst] in HH6. change (same_shape u3 u3') in HH6.
  eapply okg_bind; [ct_leaf fail|]. intros u4 u4' HH7. change (same_shape u4 u4') in HH7.
  eapply okg_bind; [ct_leaf fail|]. intros u5 u5' HH8. change (same_shape u5 u5') in HH8.
  eapply okg_bind; [ct_leaf fail|]. intros u6 u6' HH9. change (same_shape u6 u6') in HH9.
  eapply okg_bind; [ct_leaf fail|]. intros [u7 ?] [u7' ?] [HH10 _]. cbn [fst] in HH10. change (same_shape u7 u7') in HH10.
  eapply okg_bind; [apply ct_assert; exact PART|]. intros _ _ _.
  eapply okg_bind; [apply rct_lshift_s; [exact Hn1|apply sh_ok_kind with (a := n); [exact Sn|congruence]]|].
  intros [r5 ?] [r5' ?] [HH11 _]. cbn [fst] in HH11. change (same_shape r5 r5') in HH11.
  eapply okg_bind; [ct_leaf fail|]. intros ? ? _.
  eapply okg_bind; [apply ct_assert; exact PART|]. intros _ _ _.
  eapply okg_bind; [ct_leaf fail|]. intros ? ? _.
  oki. apply okg_ret; [exact PART|]. ct_rel.
Qed.
End Shifts.
