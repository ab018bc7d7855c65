(** Facts about the multiprecision comparisons. *)
From Coq Require Import ZArith List Bool Lia.
Require Import Verif.Spec Verif.Base Verif.Monad Verif.Wp Verif.ModelLimb Verif.LimbFacts Verif.LimbFacts2
  Verif.ModelBuf Verif.SpecBuf Verif.BufFacts Verif.BufFacts2 Verif.BufFacts3 Verif.UpFacts Verif.ModelCmp.
Import ListNotations.
Open Scope Z_scope.

Section Facts.
Context {c : cfg}.

Lemma lor_zero : forall x y, isl x -> isl y -> isl (Z.lor x y) /\ (Z.lor x y = 0 <-> x = 0 /\ y = 0).
Proof.
  intros x y Hx Hy. split; [apply isl_lor; auto|]. apply Z.lor_eq_0_iff.
Qed.
Lemma lxor_zero : forall x y, isl x -> isl y -> isl (Z.lxor x y) /\ (Z.lxor x y = 0 <-> x = y).
Proof. intros x y Hx Hy. split; [apply isl_lxor; auto|]. apply Z.lxor_eq_0_iff. Qed.

Lemma vmod_eq_S : forall v w i, 0 <= i -> (v mod B ^ (i + 1) = w mod B ^ (i + 1) <-> v mod B ^ i = w mod B ^ i /\ vlimb v i = vlimb w i).
Proof.
  intros v w i Hi. rewrite !vmod_S by auto. pose proof (vmod_bound v i Hi). pose proof (vmod_bound w i Hi).
  split; [intros E|intros [-> ->]; auto].
  destruct (digit_unique (B ^ i) (v mod B ^ i) (vlimb v i) (w mod B ^ i) (vlimb w i)); auto; lia.
Qed.
Lemma vmod_eq_0 : forall v w, v mod B ^ 0 = w mod B ^ 0.
Proof. intros. rewrite !vmod_0. auto. Qed.

Lemma wp_eq_mp : forall a b (Q : Z -> Prop), mp_ok a -> mp_ok b -> Q (chc (mpval a =? mpval b)) -> wp (ct_eq_mp_mp a b) Q.
Proof.
  intros a b Q Ha Hb HQ. unfold ct_eq_mp_mp.
  pose proof (nlimbs_nonneg a) as Na. pose proof (nlimbs_nonneg b) as Nb.
  pose proof (mpval_bound_B a Ha) as Ba. pose proof (mpval_bound_B b Hb) as Bb.
  set (I := fun i x => isl x /\ (x = 0 <-> mpval a mod B ^ i = mpval b mod B ^ i)).
  set (n := Z.min (nlimbs a) (nlimbs b)).
  assert (Hn : 0 <= n <= nlimbs a /\ n <= nlimbs b /\ (n = nlimbs a \/ n = nlimbs b)) by (clear - Na Nb n; lia). clearbody n.
  assert (FIN : forall k x, nlimbs a <= k -> nlimbs b <= k -> I k x -> wp (let! z := ct_is_zero_l x in lc_new z) Q).
  { intros k x K1 K2 [X1 X2]. apply wp_bind, wp_is_zero; auto. eapply wp_lc_new; [reflexivity|].
    replace (x =? 0) with (mpval a =? mpval b); auto. rewrite (vmod_big _ _ _ Ba K1), (vmod_big _ _ _ Bb K2) in X2.
    destruct (Z.eqb_spec x 0), (Z.eqb_spec (mpval a) (mpval b)); auto; tauto. }
  apply wp_bind. eapply wp_for with (I := I); [lia| | |].
  - split; [apply isl_0|]. split; intros _; [apply vmod_eq_0|auto].
  - intros i x Hi [X1 X2]. apply wp_bind, wp_load; auto; [lia|]. apply wp_bind, wp_load; auto; [lia|]. apply wp_ret.
    destruct (lxor_zero (limb a i) (limb b i)) as [Y1 Y2]; try apply limb_isl.
    destruct (lor_zero x (Z.lxor (limb a i) (limb b i))) as [Z1 Z2]; auto. split; auto.
    rewrite Z2, X2, Y2, vmod_eq_S, <- !limb_vlimb by lia. reflexivity.
  - intros x HI. apply wp_bind. eapply wp_for with (I := fun i x => (nlimbs b <= i \/ i = n) /\ I i x); [lia|split; auto| |].
    + intros i y Hi [HN [X1 X2]]. apply wp_bind, wp_load; auto; [lia|]. apply wp_ret.
      destruct (lor_zero y (limb a i)) as [Z1 Z2]; auto; [apply limb_isl|]. assert (Nb' : nlimbs b <= i) by (clear - HN Hi Hn; lia). split; [clear - Nb'; lia|]. split; auto.
      assert (0 <= i) by (clear - Hn Hi; lia). rewrite Z2, X2, vmod_eq_S, (vlimb_out (mpval b) (nlimbs b) i), limb_vlimb by auto. reflexivity.
    + intros y [HN HI2]. apply wp_bind. destruct (Z_le_gt_dec (nlimbs a) (nlimbs b)).
      * assert (En : n = nlimbs a) by lia. rewrite En in *.
        eapply wp_for with (I := I); [lia|auto| |].
        -- intros i w Hi [X1 X2]. apply wp_bind, wp_load; auto; [lia|]. apply wp_ret.
           destruct (lor_zero w (limb b i)) as [Z1 Z2]; auto; [apply limb_isl|]. split; auto.
           assert (0 <= i /\ nlimbs a <= i) as [I0 I1] by (clear - Na Hi; lia). rewrite Z2, X2, vmod_eq_S, (vlimb_out (mpval a) (nlimbs a) i), limb_vlimb by auto. intuition.
        -- intros w HW. eapply FIN; eauto; lia.
      * apply wp_for_empty; [lia|]. eapply FIN; [| |apply HI2]; lia.
Qed.

(** The comparison kernel. *)
Lemma b2z_isl : forall b, isl (b2z b).
Proof. intros []; [apply isl_1|apply isl_0]. Qed.
Lemma wp_leq_update : forall v w i x y (Q : Z -> Prop), 0 <= i -> x = vlimb v i -> y = vlimb w i ->
  Q (b2z (v mod B ^ (i + 1) <=? w mod B ^ (i + 1))) ->
  wp (leq_kernel_update (b2z (v mod B ^ i <=? w mod B ^ i)) x y) Q.
Proof.
  intros v w i x y Q Hi -> -> HQ. unfold leq_kernel_update. apply wp_bind, wp_lt_or_eq_l; try apply vlimb_isl. apply wp_ret.
  rewrite !vmod_S in HQ by auto. pose proof (vmod_bound v i Hi) as P1. pose proof (vmod_bound w i Hi) as P2.
  set (p := v mod B ^ i) in *. set (q := w mod B ^ i) in *. set (a := vlimb v i) in *. set (b := vlimb w i) in *.
  match goal with |- Q ?t => replace t with (b2z (p + a * B ^ i <=? q + b * B ^ i)); auto end.
  destruct (Z.ltb_spec a b) as [L|L], (Z.eqb_spec a b) as [E|E]; try lia.
  - pf (mul_le_l (B ^ i) (a + 1) b). rewrite (proj2 (Z.leb_le _ _)) by lia. destruct (p <=? q); reflexivity.
  - rewrite <- E. replace (p + a * B ^ i <=? q + a * B ^ i) with (p <=? q); [destruct (p <=? q); reflexivity|].
    destruct (Z.leb_spec p q), (Z.leb_spec (p + a * B ^ i) (q + a * B ^ i)); auto; lia.
  - pf (mul_le_l (B ^ i) (b + 1) a). rewrite (proj2 (Z.leb_gt (p + _) _)) by lia. destruct (p <=? q); reflexivity.
Qed.

Lemma wp_leq_mp : forall a b (Q : Z -> Prop), mp_ok a -> mp_ok b -> Q (chc (mpval a <=? mpval b)) -> wp (ct_leq_mp_mp a b) Q.
Proof.
  intros a b Q Ha Hb HQ. unfold ct_leq_mp_mp.
  pose proof (nlimbs_nonneg a) as Na. pose proof (nlimbs_nonneg b) as Nb.
  pose proof (mpval_bound_B a Ha) as Ba. pose proof (mpval_bound_B b Hb) as Bb.
  set (I := fun i x => x = b2z (mpval a mod B ^ i <=? mpval b mod B ^ i)).
  set (n := Z.min (nlimbs a) (nlimbs b)).
  assert (Hn : 0 <= n <= nlimbs a /\ n <= nlimbs b /\ (n = nlimbs a \/ n = nlimbs b)) by (clear - Na Nb n; lia). clearbody n.
  assert (FIN : forall k x, nlimbs a <= k -> nlimbs b <= k -> I k x -> wp (leq_kernel_finish x) Q).
  { intros k x K1 K2 X. unfold leq_kernel_finish. eapply wp_lc_new; [exact X|].
    rewrite (vmod_big _ _ _ Ba K1), (vmod_big _ _ _ Bb K2). auto. }
  apply wp_bind. eapply wp_for with (I := I); [lia| | |].
  - unfold I. rewrite !vmod_0. reflexivity.
  - intros i x Hi ->. apply wp_bind, wp_load; auto; [lia|]. apply wp_bind, wp_load; auto; [lia|].
    apply wp_leq_update; auto; [lia|]. reflexivity.
  - intros x HI. apply wp_bind. eapply wp_for with (I := fun i x => (nlimbs b <= i \/ i = n) /\ I i x); [lia|split; auto| |].
    + intros i y Hi [HN ->]. apply wp_bind, wp_load; auto; [lia|]. assert (nlimbs b <= i) by lia.
      apply wp_leq_update; auto; [lia|symmetry; apply (vlimb_out _ (nlimbs b)); auto|]. split; [lia|]. reflexivity.
    + intros y [HN HI2]. apply wp_bind. destruct (Z_le_gt_dec (nlimbs a) (nlimbs b)).
      * assert (En : n = nlimbs a) by lia. rewrite En in *.
        eapply wp_for with (I := I); [lia|auto| |].
        -- intros i w Hi ->. apply wp_bind, wp_load; auto; [lia|].
           apply wp_leq_update; auto; [lia|symmetry; apply (vlimb_out _ (nlimbs a)); auto; lia|]. reflexivity.
        -- intros w HW. eapply FIN; eauto; lia.
      * apply wp_for_empty; [lia|]. eapply FIN; [| |apply HI2]; lia.
Qed.

Lemma wp_geq_mp : forall a b (Q : Z -> Prop), mp_ok a -> mp_ok b -> Q (chc (mpval b <=? mpval a)) -> wp (ct_geq_mp_mp a b) Q.
Proof. intros. apply wp_leq_mp; auto. Qed.
Lemma wp_neq_mp : forall a b (Q : Z -> Prop), mp_ok a -> mp_ok b -> Q (chc (negb (mpval a =? mpval b))) -> wp (ct_neq_mp_mp a b) Q.
Proof. intros. apply wp_bind, wp_eq_mp; auto. apply wp_ret. rewrite lc_not_chc. auto. Qed.
Lemma wp_lt_mp : forall a b (Q : Z -> Prop), mp_ok a -> mp_ok b -> Q (chc (mpval a <? mpval b)) -> wp (ct_lt_mp_mp a b) Q.
Proof. intros. apply wp_bind, wp_geq_mp; auto. apply wp_ret. rewrite lc_not_chc, <- Z.ltb_antisym. auto. Qed.
Lemma wp_gt_mp : forall a b (Q : Z -> Prop), mp_ok a -> mp_ok b -> Q (chc (mpval b <? mpval a)) -> wp (ct_gt_mp_mp a b) Q.
Proof. intros. apply wp_bind, wp_leq_mp; auto. apply wp_ret. rewrite lc_not_chc, <- Z.ltb_antisym. auto. Qed.

Lemma vdiv_zero_S : forall v i, 0 <= v -> 0 <= i -> (v / B ^ i = 0 <-> vlimb v i = 0 /\ v / B ^ (i + 1) = 0).
Proof.
  intros v i Hv Hi. rewrite (vdiv_S v i) by auto. pose proof (vlimb_isl v i) as L. unfold isl in L.
  pose proof B_pos. pf (Bpow_pos (i + 1)). assert (0 <= v / B ^ (i + 1)) by (apply Z.div_pos; lia).
  pf (mul_nn B (v / B ^ (i + 1))). split; [intros E|intros [-> ->]; lia]. split; [lia|].
  assert (Z0 : B * (v / B ^ (i + 1)) = 0) by lia. apply Z.mul_eq_0 in Z0. lia.
Qed.
(** Or-ing the limbs from [k] on. *)
Lemma wp_or_limbs : forall a k (Q : Z -> Prop), mp_ok a -> 0 <= k <= nlimbs a ->
  (forall x, isl x -> (x = 0 <-> mpval a / B ^ k = 0) -> Q x) ->
  wp (zfor k (nlimbs a) (fun i x => let! v := load_l a i in ret (Z.lor x v)) 0) Q.
Proof.
  intros a k Q Ha Hk HQ. pose proof (mpval_nonneg a Ha) as V0.
  eapply wp_for with (I := fun i x => isl x /\ (x = 0 /\ mpval a / B ^ i = 0 <-> mpval a / B ^ k = 0)); [lia| | |].
  - split; [apply isl_0|tauto].
  - intros i x Hi [X1 X2]. apply wp_bind, wp_load; auto; [lia|]. apply wp_ret.
    destruct (lor_zero x (limb a i)) as [Y1 Y2]; auto; [apply limb_isl|]. split; auto.
    rewrite Y2, <- X2, (vdiv_zero_S _ i), limb_vlimb by lia. tauto.
  - intros x [X1 X2]. apply HQ; auto. rewrite vdiv_full in X2 by (auto; lia). tauto.
Qed.

Lemma wp_is_zero_mp : forall a (Q : Z -> Prop), mp_ok a -> Q (chc (mpval a =? 0)) -> wp (ct_is_zero_mp a) Q.
Proof.
  intros a Q Ha HQ. unfold ct_is_zero_mp. pose proof (nlimbs_nonneg a). apply wp_bind, wp_or_limbs; auto; [lia|].
  intros x X1 X2. rewrite vdiv_0 in X2. apply wp_bind, wp_is_zero; auto. eapply wp_lc_new; [reflexivity|].
  replace (x =? 0) with (mpval a =? 0); auto. destruct (Z.eqb_spec x 0), (Z.eqb_spec (mpval a) 0); tauto.
Qed.
Lemma empty_nlimbs : forall b, mp_is_empty b = (nlimbs b =? 0).
Proof.
  intros b. pose proof (nlimbs_spec b). pose proof (mp_len_nonneg b). pose proof LB_pos.
  assert (E : mp_is_empty b = (mp_len b =? 0)).
  { destruct b as [l|l|l]; cbn [mp_is_empty mp_len]; auto. pose proof (zlen_nonneg _ l).
    destruct (Z.eqb_spec (zlen l) 0) as [E|E]; [rewrite E; auto|].
    destruct (Z.eqb_spec (zlen l * LB) 0) as [E2|E2]; auto. apply Z.mul_eq_0 in E2. lia. }
  rewrite E. destruct (Z.eqb_spec (mp_len b) 0), (Z.eqb_spec (nlimbs b) 0) as [E2|E2]; auto; [|rewrite E2 in *; lia].
  destruct (Z_lt_le_dec 0 (nlimbs b)); [|lia]. pf (mul_le_l LB 1 (nlimbs b)). lia.
Qed.
Lemma empty_val : forall b, mp_ok b -> nlimbs b = 0 -> mpval b = 0.
Proof. intros b Hb E. pose proof (mpval_bound_B b Hb) as H. rewrite E, Z.pow_0_r in H. lia. Qed.
Lemma vsplit1 : forall v, v = vlimb v 0 + B * (v / B ^ 1).
Proof. intros. rewrite <- (vdiv_0 v) at 1. rewrite vdiv_S by lia. reflexivity. Qed.
Lemma wp_is_one_mp : forall a (Q : Z -> Prop), mp_ok a -> Q (chc (mpval a =? 1)) -> wp (ct_is_one_mp a) Q.
Proof.
  intros a Q Ha HQ. unfold ct_is_one_mp. rewrite empty_nlimbs. apply wp_mif; intros E.
  - apply Z.eqb_eq in E. rewrite (empty_val a Ha E) in HQ. eapply (wp_lc_new false); auto.
  - apply Z.eqb_neq in E. pose proof (nlimbs_nonneg a). apply wp_bind, wp_load; auto; [lia|].
    apply wp_bind, wp_or_limbs; auto; [lia|]. intros x X1 X2.
    destruct (lxor_zero (limb a 0) 1) as [Y1 Y2]; [apply limb_isl|apply isl_1|].
    destruct (lor_zero (Z.lxor (limb a 0) 1) x) as [Z1 Z2]; auto.
    apply wp_bind, wp_is_zero; auto. eapply wp_lc_new; [reflexivity|].
    match goal with |- Q (chc ?t) => replace t with (mpval a =? 1); auto end.
    pose proof (vsplit1 (mpval a)) as S. rewrite limb_vlimb in *. pose proof (vlimb_isl (mpval a) 0) as L. unfold isl in L. pose proof B_gt.
    pose proof (mpval_nonneg a Ha). pf (Bpow_pos 1). assert (0 <= mpval a / B ^ 1) by (apply Z.div_pos; lia).
    destruct (Z.eqb_spec (mpval a) 1) as [E1|E1], (Z.eqb_spec (Z.lor (Z.lxor (vlimb (mpval a) 0) 1) x) 0) as [E2|E2]; auto; exfalso.
    + apply E2, Z2. split; [apply Y2|apply X2].
      * pf (mul_nn B (mpval a / B ^ 1)). destruct (Z.eq_dec (mpval a / B ^ 1) 0) as [T|T]; [rewrite T in *; lia|].
        pf (mul_le_l B 1 (mpval a / B ^ 1)). lia.
      * destruct (Z.eq_dec (mpval a / B ^ 1) 0) as [T|T]; auto.
        pf (mul_le_l B 1 (mpval a / B ^ 1)). lia.
    + apply Z2 in E2. destruct E2 as [E2 E3]. apply Y2 in E2. apply X2 in E3. rewrite E3 in S. lia.
Qed.
Lemma wp_leq_mp_l : forall a x (Q : Z -> Prop), mp_ok a -> isl x -> Q (chc (mpval a <=? x)) -> wp (ct_leq_mp_l a x) Q.
Proof.
  intros a x Q Ha Hx HQ. unfold ct_leq_mp_l. rewrite empty_nlimbs. apply wp_mif; intros E.
  - apply Z.eqb_eq in E. rewrite (empty_val a Ha E) in HQ. unfold isl in Hx. rewrite (proj2 (Z.leb_le _ _)) in HQ by lia.
    eapply (wp_lc_new true); auto.
  - apply Z.eqb_neq in E. pose proof (nlimbs_nonneg a). apply wp_bind, wp_load; auto; [lia|].
    apply wp_bind, wp_leq_l; auto; [apply limb_isl|].
    apply wp_bind, wp_or_limbs; auto; [lia|]. intros y X1 X2.
    apply wp_bind, wp_is_zero; auto. apply wp_bind. eapply wp_lc_new; [reflexivity|]. apply wp_ret. rewrite lc_and_chc.
    match goal with |- Q (chc ?t) => replace t with (mpval a <=? x); auto end.
    pose proof (vsplit1 (mpval a)) as S. rewrite limb_vlimb in *. pose proof (vlimb_isl (mpval a) 0) as L. unfold isl in *. pose proof B_gt.
    pose proof (mpval_nonneg a Ha). pf (Bpow_pos 1). assert (0 <= mpval a / B ^ 1) by (apply Z.div_pos; lia).
    destruct (Z.eq_dec (mpval a / B ^ 1) 0) as [T|T].
    + rewrite (proj2 (Z.eqb_eq y 0)) by tauto. rewrite andb_true_r. rewrite T in S. f_equal. lia.
    + rewrite (proj2 (Z.eqb_neq y 0)) by tauto. rewrite andb_false_r. apply Z.leb_gt.
      pf (mul_le_l B 1 (mpval a / B ^ 1)). lia.
Qed.

End Facts.
