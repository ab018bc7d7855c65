(** What can be observed of the prime wheel sieve. *)
From Coq Require Import ZArith List Bool Lia.
Require Import Verif.Spec Verif.Monad Verif.Base Verif.Wp Verif.LimbFacts Verif.ModelLimb Verif.ModelBuf Verif.SpecBuf Verif.BufFacts
  Verif.ModelCmp Verif.ModelDiv Verif.ModelSieve Verif.SpecCt Verif.SpecSieve Verif.SieveFacts Verif.SieveProofs
  Verif.Ct Verif.CtLimb Verif.CtBuf Verif.CtArith Verif.CtDiv.
Import ListNotations.
Open Scope Z_scope.

Definition sum_rel {A R} (P : A -> A -> Prop) (Q : R -> R -> Prop) (a b : A + R) : Prop :=
  match a, b with inl x, inl y => P x y | inr x, inr y => Q x y | _, _ => False end.

Lemma ct_loop_pow {o : obs} : forall A R (P : A -> A -> Prop) (Q : R -> R -> Prop) (f g : A -> M (A + R)),
  (forall a b, P a b -> ct (sum_rel P Q) (f a) (g b)) ->
  forall k a b, P a b -> ct (sum_rel P Q) (loop_pow k f a) (loop_pow k g b).
Proof.
  intros A R P Q f g H. induction k as [|k IH]; intros a b Hab; cbn [loop_pow]; [apply H; auto|].
  eapply ct_bind; [apply IH; auto|]. intros [x|x] [y|y] Hxy; cbn in Hxy; try tauto; [apply IH; auto|apply ct_ret; auto].
Qed.
Lemma ct_mloop {o : obs} : forall A R (P : A -> A -> Prop) (Q : R -> R -> Prop) (f g : A -> M (A + R)) a b,
  (forall a b, P a b -> ct (sum_rel P Q) (f a) (g b)) -> P a b -> ct Q (mloop f a) (mloop g b).
Proof.
  intros A R P Q f g a b H Hab. unfold mloop. eapply ct_bind; [apply ct_loop_pow with (P := P); eauto|].
  intros [x|x] [y|y] Hxy; cbn in Hxy; try tauto; [apply ct_panic|apply ct_ret; auto].
Qed.

Section Sieve.
Context {c : cfg} {o : obs}.
Hypothesis REL : debug c = false.

Definition find_inv (v : list Z) (s : Z * Z * Z) : Prop :=
  let '(lb, ub, r) := s in 0 <= lb /\ lb < ub /\ ub <= zlen v /\ r = ub - lb.

Lemma ret_usub : forall a b x, b <= a -> returns (usub a b) x -> x = a - b.
Proof. intros a b x H E. unfold returns, usub in E. apply Z.leb_le in H. rewrite H in E. cbn in E. congruence. Qed.

(** One step halves the range in both runs, whichever half they take. *)
Lemma rct_find_step : forall v val val', 2 * zlen v < 2 ^ UW -> (forall i, 0 <= i < zlen v -> 0 <= nth (Z.to_nat i) v 0 < 256) ->
  0 <= val < 256 -> 0 <= val' < 256 -> forall s s',
  (find_inv v s /\ find_inv v s' /\ snd s = snd s') ->
  ct (sum_rel (fun s s' => find_inv v s /\ find_inv v s' /\ snd s = snd s') drel) (ct_find_step v val s) (ct_find_step v val' s').
Proof.
  intros v val val' HU HB Hv Hv' [[lb ub] r] [[lb' ub'] r'] ((A1 & A2 & A3 & A4) & (B1 & B2 & B3 & B4) & E). cbn [snd] in E.
  assert (Er : r' = r) by auto. clear E. rewrite Er in *. clear r' Er. unfold ct_find_step.
  apply ct_tick; [reflexivity|]. apply ct_if; [reflexivity| |]; intros E; [|apply ct_ret; exact I].
  apply Z.ltb_lt in E. cbv zeta. pose proof B_gt as BB.
  assert (Hodd : Z.land r 1 = r mod 2) by (change 1 with (Z.ones 1); rewrite Z.land_ones by lia; reflexivity).
  rewrite Hodd.
  assert (M0 : r mod 2 = 0 \/ r mod 2 = 1) by (pose proof (Z.mod_pos_bound r 2); lia).
  assert (Hm : 2 * ((r + 1) / 2) = r + r mod 2).
  { pose proof (Z.div_mod r 2). pose proof (Z.div_mod (r + 1) 2). pose proof (Z.mod_pos_bound (r+1) 2). lia. }
  set (h := (r + 1) / 2) in *.
  assert (Q : forall l u w x, 0 <= l -> l < u -> u <= zlen v -> r = u - l -> 0 <= w < 256 -> 
    returns (ct_lt_l_l (nth (Z.to_nat (l + h - 1)) v 0) w) x -> exists b, x = chc b).
  { intros l u w x X1 X2 X3 X4 X5 X. pose proof (HB (l + h - 1) ltac:(lia)).
    assert (Y : wp (ct_lt_l_l (nth (Z.to_nat (l + h - 1)) v 0) w) (fun r => exists b, r = chc b)).
    { apply wp_lt_l; [unfold isl; lia|unfold isl; lia|eauto]. }
    unfold wp, returns in *. rewrite X in Y. exact Y. }
  eapply ct_bind_r; [apply (ct_usub REL)|]. intros i i' _ R1 R1'. apply ret_usub in R1, R1'; try lia. subst i i'.
  assert (Z1 : znth v (lb + h - 1) = ret (nth (Z.to_nat (lb + h - 1)) v 0)).
  { unfold znth. replace (0 <=? lb + h - 1) with true by (symmetry; apply Z.leb_le; lia).
    replace (lb + h - 1 <? zlen v) with true by (symmetry; apply Z.ltb_lt; lia). reflexivity. }
  assert (Z2 : znth v (lb' + h - 1) = ret (nth (Z.to_nat (lb' + h - 1)) v 0)).
  { unfold znth. replace (0 <=? lb' + h - 1) with true by (symmetry; apply Z.leb_le; lia).
    replace (lb' + h - 1 <? zlen v) with true by (symmetry; apply Z.ltb_lt; lia). reflexivity. }
  rewrite Z1, Z2. eapply ct_bind_r; [apply ct_ret with (R := drel); exact I|]. intros p p' _ P1 P1'.
  injection P1 as <-. injection P1' as <-.
  eapply ct_bind_r; [apply (rct_lt_l_l REL)|]. intros x x' _ X X'.
  destruct (Q lb ub val x) as [b ->]; auto; try lia. destruct (Q lb' ub' val' x') as [b' ->]; auto; try lia.
  eapply ct_bind_r; [apply (ct_usub REL)|]. intros ? ? _ _ _. eapply ct_bind_r; [apply (ct_usub REL)|]. intros ? ? _ _ _.
  rewrite !(rel_dassert REL).
  eapply ct_bind_r; [apply (ct_usub REL)|]. intros z z' _ R2 R2'. apply ret_usub in R2, R2'; try lia. subst z z'.
  rewrite !lc_select_usize_chc by lia.
  eapply ct_bind_r; [apply (ct_usub REL)|]. intros y y' _ R3 R3'.
  apply ret_usub in R3; [|destruct b; lia]. apply ret_usub in R3'; [|destruct b'; lia]. subst y y'.
  apply ct_ret. cbn [sum_rel find_inv snd]. destruct b, b'; repeat split; lia.
Qed.

Lemma rct_find : forall v val val', 0 < zlen v -> 2 * zlen v < 2 ^ UW -> (forall i, 0 <= i < zlen v -> 0 <= nth (Z.to_nat i) v 0 < 256) ->
  0 <= val < 256 -> 0 <= val' < 256 -> ct drel (ct_find_first_ge_than v val) (ct_find_first_ge_than v val').
Proof.
  intros v val val' HL HU HB Hv Hv'. unfold ct_find_first_ge_than. rewrite !(rel_dassert_m REL). cbv zeta.
  eapply ct_bind_r; [apply (ct_usub REL)|]. intros r r' _ R R'. apply ret_usub in R, R'; try lia. subst r r'.
  eapply ct_mloop; [apply rct_find_step; eauto|]. cbn [find_inv snd]. repeat split; lia.
Qed.

Lemma rct_start0 : (forall a b a' b', ob (EDiv a b) = ob (EDiv a' b')) -> forall x x',
  ct (fun _ _ => True) (lvl0_start_geq_than x) (lvl0_start_geq_than x').
Proof.
  intros HD x x'. unfold lvl0_start_geq_than.
  apply ct_bind with (R := drel).
  { unfold lmodhw. apply ct_tick; [apply HD|]. apply ct_if; [reflexivity| |]; intros _; [apply ct_panic|apply ct_ret; exact I]. }
  intros r r' _. cbv zeta. rewrite !(rel_dassert_m REL).
  eapply ct_bind; [|intros; apply ct_ret; exact I].
  assert (L : zlen OFFSETS = 8) by reflexivity. pose proof UW_gt.
  apply rct_find; try lia.
  - rewrite L. intros i Hi. assert (X : i = 0 \/ i = 1 \/ i = 2 \/ i = 3 \/ i = 4 \/ i = 5 \/ i = 6 \/ i = 7) by lia.
    destruct X as [X|[X|[X|[X|[X|[X|[X|X]]]]]]]; rewrite X; vm_compute; split; congruence.
  - apply Z.mod_pos_bound. lia.
  - apply Z.mod_pos_bound. lia.
Qed.

Lemma rct_start1 : (forall a b a' b', ob (EDiv a b) = ob (EDiv a' b')) -> forall n n', same_shape n n' ->
  ct (fun _ _ => True) (lvl1_start_geq_than n) (lvl1_start_geq_than n').
Proof.
  intros HD n n' H. unfold lvl1_start_geq_than. eapply ct_bind; [apply ct_refl; reflexivity|].
  intros [d|e] d' <-; [|apply ct_panic].
  eapply ct_bind; [apply rct_mod_l; auto|]. intros a a' _.
  eapply ct_bind; [apply rct_leq_mp_l; auto|]. intros b b' _. cbv zeta.
  eapply ct_bind; [apply (ct_ladd REL)|]. intros s s' _.
  eapply ct_bind; [apply rct_start0; auto|]. intros w w' _. apply ct_ret. exact I.
Qed.
End Sieve.

Definition obs_ctl : obs := {| ob := ctl_of; strict := true |}.

Lemma ct_search : forall (c : cfg), debug c = false -> forall v val val', 0 < zlen v -> 2 * zlen v < 2 ^ UW ->
  (forall i, 0 <= i < zlen v -> 0 <= nth (Z.to_nat i) v 0 < 256) -> 0 <= val < 256 -> 0 <= val' < 256 ->
  agree (ct_find_first_ge_than v val) (ct_find_first_ge_than v val').
Proof. intros. eapply ct_all. apply rct_find; auto. Qed.

Lemma ct_sieve_start : forall (c : cfg), debug c = false -> forall n n', same_shape n n' ->
  control (lvl1_start_geq_than n) = control (lvl1_start_geq_than n').
Proof.
  intros c REL n n' H. pose proof (@rct_start1 c obs_ctl REL ltac:(intros; reflexivity) n n' H) as X.
  apply ct_trace in X; [|reflexivity]. exact (proj1 X).
Qed.
