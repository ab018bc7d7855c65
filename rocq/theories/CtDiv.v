(** Division runs in constant time for a divisor of public length. *)
From Coq Require Import ZArith List Bool Lia.
Require Import Verif.Spec Verif.Monad Verif.Base Verif.Wp Verif.LimbFacts Verif.ModelLimb Verif.ModelBuf Verif.SpecBuf Verif.BufFacts
  Verif.ModelCmp Verif.ModelAdd Verif.ModelShift Verif.ModelMul Verif.ModelDiv
  Verif.Ct Verif.CtLimb Verif.CtBuf Verif.CtArith.
Import ListNotations.
Open Scope Z_scope.

Section Div.
Context {c : cfg} {o : obs}.
Hypothesis REL : debug c = false.

(** ** Composite buffers *)
Definition seg_found (p q : list cseg * cseg * list cseg * Z) : Prop :=
  let '(b1, s1, r1, o1) := p in
  let '(b2, s2, r2, o2) := q in
  Forall2 seg_shape b1 b2 /\ seg_shape s1 s2 /\ Forall2 seg_shape r1 r2 /\ o1 = o2.
Lemma rct_index_to_segment : forall l l' b b' i off, Forall2 seg_shape l l' -> Forall2 seg_shape b b' ->
  ct seg_found (limb_index_to_segment b l off i) (limb_index_to_segment b' l' off i).
Proof.
  intros l l' b b' i off H. revert b b' off. induction H as [|s s' l l' Hs Hl IH]; intros b b' off Hb.
  - apply ct_panic.
  - cbn [limb_index_to_segment]. pose proof Hs as (E & _). rewrite <- E.
    apply ct_tick; [reflexivity|]. apply ct_if; [reflexivity| |]; intros _.
    + apply ct_ret. cbn. auto.
    + apply IH. apply Forall2_app; auto.
Qed.
Lemma seg_len : forall s t, seg_shape s t ->
  mp_len (cs_segment t) = mp_len (cs_segment s) /\
  mp_len (cs_high_next_partial t) = mp_len (cs_high_next_partial s) /\
  supports_unaligned (cs_segment t) = supports_unaligned (cs_segment s) /\
  mp_is_empty (cs_high_next_partial t) = mp_is_empty (cs_high_next_partial s).
Proof.
  intros s t (_ & H1 & H2). repeat split; auto using shape_len, shape_unaligned, shape_empty.
Qed.
Lemma rct_load_partial : forall l l' n v w, Forall2 seg_shape l l' ->
  ct drel (composite_load_partial l n v) (composite_load_partial l' n w).
Proof.
  intros l l' n v w H. revert n v w. induction H as [|s t l l' Hs Hl IH]; intros n v w.
  - cbn [composite_load_partial]. ct_auto.
  - cbn [composite_load_partial]. destruct (seg_len s t Hs) as (_ & E1 & _ & E2).
    rewrite E1, E2. pose proof Hs as (_ & _ & H3).
    apply ct_tick; [reflexivity|]. apply ct_if; [reflexivity|intros; ct_auto|intros _]. cbv zeta.
    ct_auto; apply IH.
Qed.
#[local] Hint Resolve rct_load_partial : ct.
Lemma nil_eq : forall A C (l : list A) (l' : list C), length l = length l' ->
  (match l with [] => true | _ => false end) = (match l' with [] => true | _ => false end).
Proof. intros A C [|x l] [|y l']; simpl; congruence. Qed.
Lemma F2_len : forall A C (R : A -> C -> Prop) l l', Forall2 R l l' -> length l = length l'.
Proof. intros A C R l l' H. induction H; simpl; auto. Qed.
Lemma rct_composite_load : forall l l' i j, Forall2 seg_shape l l' -> i = j ->
  ct drel (composite_load l i) (composite_load l' j).
Proof.
  intros l l' i j H <-. unfold composite_load.
  eapply ct_bind; [apply rct_index_to_segment; [exact H|constructor]|].
  intros [[[b1 s1] r1] o1] [[[b2 s2] r2] o2] (H1 & H2 & H3 & <-).
  destruct (seg_len s1 s2 H2) as (E1 & E2 & E3 & E4). pose proof H2 as (E & S1 & S2).
  rewrite E1, E3, <- E, <- (nil_eq _ _ r1 r2 (F2_len _ _ _ _ _ H3)).
  ct_auto. apply rct_load_partial. constructor; auto.
Qed.
Lemma rct_store_partial : forall l l' n v w, Forall2 seg_shape l l' ->
  ct (fun p q => Forall2 seg_shape (fst p) (fst q)) (composite_store_partial l n v) (composite_store_partial l' n w).
Proof.
  intros l l' n v w H. revert n v w. induction H as [|s t l l' Hs Hl IH]; intros n v w.
  - cbn [composite_store_partial]. ct_auto; simpl; auto.
  - cbn [composite_store_partial]. destruct (seg_len s t Hs) as (_ & E1 & _ & E2).
    pose proof Hs as (E & H2 & H3).
    apply ct_tick; [reflexivity|]. apply ct_if; [reflexivity|intros _; apply ct_ret; constructor; auto|intros _].
    cbv zeta. rewrite E1, E2. apply ct_tick; [reflexivity|]. apply ct_if; [reflexivity| |]; intros _.
    + eapply ct_bind; [ct_leaf0|]. intros m m' _.
      eapply ct_bind; [apply rct_store_l; auto; exact H3|]. intros p p' Hp.
      eapply ct_bind; [apply ct_lshr; auto|]. intros v1 v2 _.
      eapply ct_bind; [apply IH|]. intros [r1 x] [r2 y] Hr. apply ct_ret. simpl in *.
      constructor; auto. split; auto.
    + eapply ct_bind; [apply IH|]. intros [r1 x] [r2 y] Hr. apply ct_ret. simpl in *. constructor; auto.
Qed.
Lemma rct_composite_store : forall l l' i j v w, Forall2 seg_shape l l' -> i = j ->
  ct drel (composite_store l i v) (composite_store l' j w).
Proof.
  intros l l' i j v w H <-. unfold composite_store.
  eapply ct_bind; [apply rct_index_to_segment; [exact H|constructor]|].
  intros [[[b1 s1] r1] o1] [[[b2 s2] r2] o2] (H1 & H2 & H3 & <-).
  destruct (seg_len s1 s2 H2) as (E1 & E2 & E3 & E4). pose proof H2 as (E & S1 & S2).
  rewrite E1, E3, <- E, <- (nil_eq _ _ r1 r2 (F2_len _ _ _ _ _ H3)).
  eapply ct_bind; [apply ct_refl; reflexivity|]. intros e ? <-.
  assert (K : forall a b, same_shape a b -> Forall2 seg_shape
     (b1 ++ mk_cseg (cs_end s1) a (cs_high_next_partial s1) :: r1)
     (b2 ++ mk_cseg (cs_end s1) b (cs_high_next_partial s2) :: r2)).
  { intros a b Hab. apply Forall2_app; auto. constructor; auto. split; auto. }
  apply ct_tick; [reflexivity|]. apply ct_if; [reflexivity|intros _; ct_auto; apply K; auto|intros _].
  apply ct_tick; [reflexivity|]. apply ct_if; [reflexivity|intros _; ct_auto; apply K; auto|intros _].
  cbv zeta. eapply ct_bind; [ct_leaf0|]. intros m m' _.
  eapply ct_bind; [apply ct_refl; reflexivity|]. intros k ? <-.
  eapply ct_bind; [apply rct_store_l; auto; exact S1|]. intros p p' Hp.
  eapply ct_bind; [apply ct_lshr; auto|]. intros v1 v2 _.
  eapply ct_bind; [apply rct_store_partial; constructor; auto; split; auto|].
  intros [r x] [r' y] Hr. rewrite !(rel_dassert REL). apply ct_ret. apply Forall2_app; auto.
Qed.
#[local] Hint Resolve rct_composite_load rct_composite_store : ct.

Definition new_rel (p q : mp * mp * list mp) : Prop :=
  let '(p1, s1, r1) := p in
  let '(p2, s2, r2) := q in
  same_shape p1 p2 /\ same_shape s1 s2 /\ Forall2 same_shape r1 r2.
Lemma rct_composite_new_aux : forall n l l' k, Forall2 same_shape l l' ->
  ct drel (composite_new_aux l k n) (composite_new_aux l' k n).
Proof.
  induction n as [|n IH]; intros l l' k H; [apply ct_ret; constructor|].
  destruct H as [|s t l l' Hs Hl]; [apply ct_ret; constructor|].
  cbn [composite_new_aux]. cbv zeta. rewrite (shape_len s t Hs).
  eapply ct_bind with (R := new_rel).
  - destruct Hl as [|x y l l' Hx Hl].
    + eapply ct_bind; [apply rct_take; auto; exact Hs|].
      intros [p1 p2] [q1 q2] [H1 H2]. apply ct_ret. repeat split; try apply H1; try apply H2. constructor.
    + rewrite (shape_len x y Hx). apply ct_tick; [reflexivity|]. apply ct_if; [reflexivity| |]; intros _.
      * eapply ct_bind; [apply rct_take; auto; exact Hx|].
        intros [p1 p2] [q1 q2] [H1 H2]. apply ct_ret. repeat split; try apply H1; try apply H2; try apply Hs. constructor; auto.
      * eapply ct_bind; [apply rct_take; auto; exact Hs|].
        intros [p1 p2] [q1 q2] [H1 H2]. apply ct_ret. repeat split; try apply H1; try apply H2. constructor; auto.
  - intros [[p1 s1] r1] [[p2 s2] r2] (H1 & H2 & H3). rewrite (shape_len p1 p2 H1).
    eapply ct_bind; [apply IH; exact H3|]. intros x y Hxy. apply ct_ret. constructor; auto. split; auto.
Qed.
Lemma rct_composite_new : forall l l', Forall2 same_shape l l' -> ct drel (composite_new l) (composite_new l').
Proof.
  intros l l' H. unfold composite_new. rewrite (F2_len _ _ _ _ _ H).
  apply rct_composite_new_aux. auto.
Qed.
#[local] Hint Resolve rct_composite_new : ct.

(** ** Division *)
Lemma rct_scale_val_ : forall a b d e k a' b' d' e' k',
  ct drel (scale_val_ a b d e k) (scale_val_ a' b' d' e' k').
Proof. intros. unfold scale_val_. ct_auto. Qed.
#[local] Hint Resolve rct_scale_val_ : ct.
Lemma rct_scale_val : forall d e a b a' b', ct drel (scale_val d a b) (scale_val e a' b').
Proof. intros. unfold scale_val. ct_auto. Qed.
Lemma rct_unscale_val : forall d e a b a' b', ct drel (unscale_val d a b) (unscale_val e a' b').
Proof. intros. unfold unscale_val. ct_auto. Qed.
Lemma rct_q_estimate : forall d e a b k a' b' k', ct drel (make_q_estimate d a b k) (make_q_estimate e a' b' k').
Proof. intros. unfold make_q_estimate. ct_auto. Qed.
#[local] Hint Resolve rct_scale_val rct_unscale_val rct_q_estimate : ct.
Lemma rct_scaled_v_val : forall d e i j a b a' b', dv_shape d e -> i = j ->
  ct drel (scaled_v_val d i a b) (scaled_v_val e j a' b').
Proof. intros d e i j a b a' b' [H _] <-. unfold scaled_v_val. ct_auto. Qed.
#[local] Hint Resolve rct_scaled_v_val : ct.
Lemma rct_add_scaled : forall d e x y i j a b k a' b' k', dv_shape d e -> i = j ->
  ct drel (add_scaled_v_val_cond d x i a b k) (add_scaled_v_val_cond e y j a' b' k').
Proof. intros d e x y i j a b k a' b' k' H <-. unfold add_scaled_v_val_cond. ct_auto. Qed.
Lemma rct_sub_scaled : forall d e x y i j a b k q a' b' k' q', dv_shape d e -> i = j ->
  ct drel (sub_scaled_qv_val d x i q a b k) (sub_scaled_qv_val e y j q' a' b' k').
Proof. intros d e x y i j a b k q a' b' k' q' H <-. unfold sub_scaled_qv_val. ct_auto. Qed.
#[local] Hint Resolve rct_add_scaled rct_sub_scaled : ct.

(** The quotient buffer has a limb for index [j]. *)
Definition q_has (q : option mp) (j : Z) : Prop :=
  match q with Some q => j < nlimbs q | None => True end.
Lemma q_has_shape : forall q q' j, opt_shape q q' -> q_has q j -> q_has q' j.
Proof.
  intros [q|] [q'|] j H H1; simpl in *; try tauto. rewrite (shape_nlimbs q q' H). auto.
Qed.
Lemma opt_refl : forall q, opt_shape q q.
Proof. intros [q|]; simpl; auto using shape_refl. Qed.
Lemma opt_trans : forall p q r, opt_shape p q -> opt_shape q r -> opt_shape p r.
Proof. intros [p|] [q|] [r|]; simpl; try tauto. apply shape_trans. Qed.
#[local] Hint Resolve opt_refl : ct.
Lemma returns_bind : forall A C (m : M A) (f : A -> M C) r, returns (bind m f) r ->
  exists a, returns m a /\ returns (f a) r.
Proof. intros A C [t [a|]] f r H; unfold returns in *; simpl in *; [eauto|discriminate]. Qed.
Lemma returns_slice : forall (l : list Z) a b r, returns (slice l a b) r -> 0 <= a <= b /\ b <= zlen l /\ zlen r = b - a.
Proof.
  intros l a b r H. unfold slice in H. destruct (_ && _) eqn:E; [|discriminate].
  apply andb_true_iff in E. destruct E as [E E3]. apply andb_true_iff in E. destruct E as [E1 E2].
  apply Z.leb_le in E1, E2, E3. injection H as <-. split; [lia|]. split; [lia|].
  unfold zlen in *. rewrite firstn_length, skipn_length. lia.
Qed.
Lemma zlen_splice_in : forall (l s : list Z) a, 0 <= a -> a + zlen s <= zlen l -> zlen (splice l a s) = zlen l.
Proof.
  intros l s a Ha H. unfold splice, zlen in *. rewrite !app_length, firstn_length, skipn_length. lia.
Qed.
Lemma to_le_zlen : forall v, zlen (to_le_bytes v) = LB.
Proof. intros. apply to_le_len. Qed.
Lemma to_be_zlen : forall v, zlen (to_be_bytes v) = LB.
Proof. intros. unfold to_be_bytes, zlen. rewrite rev_length. apply to_le_len. Qed.
Ltac rinv H := let x := fresh "x" in let E := fresh "E" in
  apply returns_bind in H; destruct H as (x & E & H); cbv zeta beta in H.
Lemma returns_usub : forall a b r, returns (usub a b) r ->
  (b <= a /\ r = a - b) \/ (a < b /\ r = (a - b) mod 2 ^ UW).
Proof.
  intros a b r H. unfold usub in H. rewrite REL in H.
  destruct (Z.leb_spec b a); injection H as <-; auto.
Qed.
Lemma store_l_shape : forall b i v b', returns (store_l b i v) b' -> same_shape b b'.
Proof.
  intros b i v b' H. unfold store_l in H. rinv H. clear E.
  pose proof LB_cases as LC.
  destruct b as [l|l|l]; rinv H; injection H as <-.
  - apply shape_be. unfold be_mp_store_l in E. rewrite !(rel_dassert REL) in E. rinv E. clear E0.
    rinv E. clear E0. destruct (Z.leb_spec LB x1).
    + unfold _be_mp_store_l_full in E. rinv E. apply returns_usub in E0. rinv E. apply returns_slice in E1.
      injection E as <-. apply zlen_splice_in; rewrite ?to_be_zlen; lia.
    + rewrite !(rel_dassert_m REL) in E. unfold _be_mp_store_l_high_partial in E. rinv E. rinv E. rinv E.
      apply returns_slice in E0, E2. apply returns_usub in E1. rewrite to_be_zlen in E2.
      injection E as <-. apply zlen_splice_in; lia.
  - apply shape_le. unfold le_mp_store_l in E. cbv zeta in E. rewrite !(rel_dassert REL) in E.
    rinv E. clear E0. destruct (Z.leb_spec (i * LB + LB) (zlen l)).
    + unfold _le_mp_store_l_full in E. cbv zeta in E. rinv E. apply returns_slice in E0.
      injection E as <-. apply zlen_splice_in; rewrite ?to_le_zlen; lia.
    + rewrite !(rel_dassert_m REL) in E. unfold _le_mp_store_l_high_partial in E. cbv zeta in E. rinv E. rinv E. rinv E.
      apply returns_slice in E0, E2. apply returns_usub in E1. rewrite to_le_zlen in E2.
      injection E as <-. apply zlen_splice_in; lia.
  - apply shape_ne. unfold zupd in E. destruct (_ && _) eqn:EB; [|discriminate].
    apply andb_true_iff in EB. rewrite Z.leb_le, Z.ltb_lt in EB.
    injection E as <-. apply zlen_splice_in; [lia|]. change (zlen [v]) with 1. lia.
Qed.
Lemma rct_store_q : forall q q' i j a b k l, opt_shape q q' -> i = j -> q_has q i ->
  ct (fun p p' => opt_shape (fst p) (fst p') /\ snd p = false /\ snd p' = false /\ opt_shape q (fst p))
    (store_q q i a b) (store_q q' j k l).
Proof.
  intros [q|] [q'|] i j a b k l H <- H1; cbn [opt_shape q_has] in *; try tauto; unfold store_q.
  - rewrite (shape_nlimbs q q' H). destruct (Z.eqb_spec i (nlimbs q)); [lia|]. cbn [negb].
    eapply ct_bind; [ct_leaf0|]. intros x y _.
    apply ct_tick; [reflexivity|]. rewrite !(rel_dassert REL).
    eapply ct_bind_r; [apply rct_store_l; auto; exact H|]. intros s t Hst E1 E2.
    apply ct_ret. cbn [fst snd opt_shape]. repeat split; try apply Hst.
    + destruct (store_l_shape q i x s E1); auto.
    + destruct (store_l_shape q i x s E1); auto.
  - apply ct_ret. simpl. auto.
Qed.
#[local] Hint Resolve rct_store_q : ct.
#[local] Hint Extern 0 (q_has _ _) => eassumption : ct.

Lemma rct_q_clear : forall q q' n m, opt_shape q q' -> n = m ->
  ct (fun p p' => opt_shape p p') (q_clear_above q n) (q_clear_above q' m).
Proof.
  intros [q|] [q'|] n m H <-; cbn [opt_shape] in *; try tauto; unfold q_clear_above; ct_auto; auto.
Qed.
Lemma rct_q_short : forall q q' v u v' u', opt_shape q q' -> v = v' -> u = u' ->
  ct eq (q_too_short q v u) (q_too_short q' v' u').
Proof.
  intros [q|] [q'|] v u v' u' H <- <-; cbn [opt_shape] in *; try tauto; unfold q_too_short; ct_auto.
Qed.

Ltac q_loop I :=
  first [ apply ct_for with (R := I) | apply ct_for_down with (R := I) ].

(** The state of the division loop: nothing has failed and the quotient buffer is
    as long as it was. *)
Definition ds_rel (q0 : option mp) (p q : list cseg * option mp * bool) : Prop :=
  Forall2 seg_shape (fst (fst p)) (fst (fst q)) /\ opt_shape (snd (fst p)) (snd (fst q)) /\
  snd p = false /\ snd q = false /\ opt_shape q0 (snd (fst p)).
Lemma rct_div_step : forall d e n j s t q0, dv_shape d e -> ds_rel q0 s t -> q_has q0 j ->
  ct (ds_rel q0) (div_step d n j s) (div_step e n j t).
Proof.
  intros d e n j [[u q] f] [[u' q'] f'] q0 Hd (H1 & H2 & H3 & H4 & H5) Hq. cbn [fst snd] in *. subst f f'.
  pose proof (q_has_shape q0 q j H5 Hq) as Hq'.
  unfold div_step, ds_rel. ct_auto. all: eauto using opt_trans.
Qed.
Lemma zlen_zrepeat : forall (n : Z), 0 <= n -> zlen (zrepeat 0 n) = n.
Proof. intros n H. unfold zlen, zrepeat. rewrite repeat_length. lia. Qed.
Lemma zlen_nn : forall (l : list Z), 0 <= zlen l.
Proof. intros. unfold zlen. lia. Qed.
Lemma clear_shape : forall b i b', returns (clear_bytes_above b i) b' -> same_shape b b'.
Proof.
  intros b i b' H. unfold clear_bytes_above in H. rinv H. clear E.
  destruct b as [l|l|l]; rinv H; injection H as <-.
  - apply shape_be. unfold be_mp_clear_bytes_above in E. rinv E. clear E0.
    destruct (zlen l <=? i); [injection E as <-; auto|]. rinv E. clear E0. rinv E. apply returns_slice in E0.
    injection E as <-. apply zlen_splice_in; rewrite ?zlen_zrepeat; lia.
  - apply shape_le. unfold le_mp_clear_bytes_above in E. rinv E. clear E0.
    destruct (zlen l <=? i); [injection E as <-; auto|]. rinv E. apply returns_slice in E0.
    injection E as <-. apply zlen_splice_in; rewrite ?zlen_zrepeat by apply zlen_nn; lia.
  - apply shape_ne. unfold ne_mp_clear_bytes_above in E. cbv zeta in E. rinv E. clear E0.
    destruct (zlen l <=? i / LB); [injection E as <-; auto|]. rinv E.
    assert (L : zlen (fst x2) = zlen l).
    { rinv E0. clear E1. destruct (negb (i mod LB =? 0)).
      - rinv E0. rinv E0. rinv E0. unfold zupd in E3. destruct (_ && _) eqn:EB; [|discriminate].
        apply andb_true_iff in EB. rewrite Z.leb_le, Z.ltb_lt in EB.
        injection E3 as <-. injection E0 as <-. apply zlen_splice_in; [lia|].
        change (zlen [Z.land x5 x4]) with 1. lia.
      - injection E0 as <-. reflexivity. }
    destruct x2 as [l2 k]. cbn [fst] in L. rinv E. apply returns_slice in E1.
    injection E as <-. rewrite <- L. apply zlen_splice_in; rewrite ?zlen_zrepeat by apply zlen_nn; lia.
Qed.
Lemma q_clear_shape : forall q n q', returns (q_clear_above q n) q' -> opt_shape q q'.
Proof.
  intros [q|] n q' H; unfold q_clear_above in H.
  - rinv H. injection H as <-. simpl. eapply clear_shape; eauto.
  - injection H as <-. exact I.
Qed.

(** The quotient buffer, if any, has at least [n] limbs. *)
Definition q_room (q : option mp) (n : Z) : Prop :=
  match q with Some q => n <= nlimbs q | None => True end.
Lemma q_room_has : forall q n j, q_room q n -> j < n -> q_has q j.
Proof. intros [q|] n j H H1; simpl in *; lia. Qed.
Lemma q_room_shape : forall q q' n, opt_shape q q' -> q_room q n -> q_room q' n.
Proof.
  intros [q|] [q'|] n H H1; simpl in *; try tauto. rewrite (shape_nlimbs q q' H). auto.
Qed.
Lemma zeros_shape : forall a b n, same_shape a b -> same_shape (mp_zeros_like a n) (mp_zeros_like b n).
Proof.
  intros a b n H. pose proof (shape_inv a b H). destruct a, b; try tauto; apply shape_refl.
Qed.
Lemma shape_join : forall a b d e, same_shape a b -> same_shape d e -> same_shape (mp_join a d) (mp_join b e).
Proof.
  intros a b d e H H1. pose proof (shape_inv a b H). pose proof (shape_inv d e H1).
  destruct a, b; try tauto; destruct d, e; try tauto; cbn [mp_join]; auto;
    first [apply shape_be|apply shape_le|apply shape_ne]; unfold zlen in *; rewrite !app_length; lia.
Qed.
Lemma rct_div_parts : forall uh uh' l l', opt_shape uh uh' -> Forall2 seg_shape l l' ->
  ct (fun p q => opt_shape (fst p) (fst q) /\ same_shape (snd p) (snd q)) (div_parts uh l) (div_parts uh' l').
Proof.
  intros uh uh' l l' H H1. unfold div_parts, composite_segments.
  assert (J : forall l l' k k', Forall2 seg_shape l l' -> opt_shape k k' ->
    Forall2 same_shape (join_segments k l) (join_segments k' l')).
  { clear. intros l l' k k' H. revert k k'. induction H as [|s t l l' Hs Hl IH]; intros k k' Hk; [constructor|].
    destruct Hs as (_ & Hs & Hp). cbn [join_segments]. constructor.
    - destruct k, k'; cbn [opt_shape] in Hk; try tauto. apply shape_join; auto.
    - apply IH. simpl. auto. }
  specialize (J l l' None None H1 I).
  destruct J as [|x1 y1 ? ? E1 J]; [apply ct_panic|].
  destruct J as [|x2 y2 ? ? E2 J]; [apply ct_panic|].
  destruct J as [|x3 y3 ? ? E3 J]; [apply ct_panic|].
  destruct J as [|x4 y4 ? ? E4 J]; [|apply ct_panic].
  apply ct_ret. cbn [fst snd]. destruct uh, uh'; cbn [opt_shape] in *; try tauto; auto.
Qed.
#[local] Hint Resolve rct_div_parts rct_q_short : ct.

Definition uh_len (u : option mp) : Z := match u with Some u => mp_len u | None => 0 end.
Lemma rct_div : forall uh uh' ul ul' d e q q', opt_shape uh uh' -> same_shape ul ul' -> dv_shape d e ->
  opt_shape q q' -> q_room q (ct_mp_nlimbs (mp_len ul + uh_len uh + 1 - dv_len d)) ->
  ct (fun p p' => fst (fst (fst p)) = fst (fst (fst p')) /\ opt_shape (snd (fst (fst p))) (snd (fst (fst p'))) /\
       same_shape (snd (fst p)) (snd (fst p')) /\ opt_shape (snd p) (snd p'))
    (ct_div_mp_mp uh ul d q) (ct_div_mp_mp uh' ul' e q').
Proof.
  intros uh uh' ul ul' d e q q' Huh Hul Hd Hq HR. unfold ct_div_mp_mp. cbv zeta.
  set (u := match uh with Some u => u | None => mp_zeros_like ul 0 end).
  set (u' := match uh' with Some u => u | None => mp_zeros_like ul' 0 end).
  assert (Hu : same_shape u u').
  { unfold u, u'. destruct uh, uh'; cbn [opt_shape] in *; try tauto. apply zeros_shape. auto. }
  assert (Lu : mp_len u = uh_len uh).
  { unfold u. destruct uh; auto. simpl. pose proof LB_cases. destruct ul; cbn [mp_zeros_like mp_len]; try reflexivity.
    unfold ne_elements_for_len, ct_mp_limbs_align_len, ct_mp_nlimbs.
    destruct LB_cases as [->| ->]; reflexivity. }
  rewrite (shape_len u u' Hu), (shape_len ul ul' Hul), <- (proj2 Hd).
  set (len := mp_len ul + mp_len u) in *. rewrite <- Lu in HR. fold len in HR. clearbody u u'.
  eapply ct_bind; [apply rct_q_short; auto; exact Hq|]. intros s ? <-.
  destruct s; [apply ct_ret; cbn; auto|].
  apply ct_tick; [reflexivity|]. apply ct_if; [reflexivity| |]; intros E.
  { eapply ct_bind; [apply rct_q_clear; auto; exact Hq|]. intros r r' Hr. apply ct_ret. cbn. auto. }
  apply Z.ltb_ge in E.
  eapply ct_bind_r; [apply ct_refl; reflexivity|]. intros ml ? <- ML _.
  apply returns_usub in ML. destruct ML as [[_ ->]|[? _]]; [|lia].
  eapply ct_bind_r; [apply rct_q_clear; auto; exact Hq|]. intros r r' Hr R1 _.
  apply q_clear_shape in R1. pose proof (q_room_shape _ _ _ R1 HR) as HR1.
  clear R1 HR q q' Hq.
  eapply ct_bind; [apply ct_refl; reflexivity|]. intros pl ? <-.
  eapply ct_bind.
  { apply rct_composite_new. constructor; [exact Hul|]. constructor; [exact Hu|]. constructor; [|constructor].
    apply zeros_shape. exact Hul. }
  intros p p' Hp. change (Forall2 seg_shape p p') in Hp.
  eapply ct_bind with (R := fun s t => Forall2 seg_shape (fst s) (fst t)).
  { eapply ct_weaken; [ct_leaf fail|]. intros [? ?] [? ?] []; auto. }
  intros [p1 x] [p1' x'] Hp1. cbn [fst] in Hp1. rewrite !(rel_dassert REL).
  eapply ct_bind.
  { apply ct_for_down with (R := ds_rel r); auto.
    - repeat split; cbn; auto. apply opt_refl.
    - intros i s t Hi Hst. apply rct_div_step; auto. eapply q_room_has; eauto. lia. }
  intros [[p2 q2] f] [[p2' q2'] f'] (H1 & H2 & H3 & H4 & _). cbn [fst snd] in *. subst f f'.
  eapply ct_bind with (R := fun _ _ => True).
  { apply ct_for with (R := fun _ _ => True); auto. intros. unfold dassert_m. rewrite REL. apply ct_ret. auto. }
  intros _ _ _. ct_auto; auto.
Qed.
Lemma rct_mod : forall uh uh' ul ul' d e, opt_shape uh uh' -> same_shape ul ul' -> dv_shape d e ->
  ct drel (ct_mod_mp_mp uh ul d) (ct_mod_mp_mp uh' ul' e).
Proof.
  intros uh uh' ul ul' d e H1 H2 H3. unfold ct_mod_mp_mp.
  eapply ct_bind; [apply rct_div; eauto; exact I|].
  intros [[[r a] b] q] [[[r' a'] b'] q'] (E1 & E2 & E3 & E4). cbn [fst snd] in *. subst r'.
  destruct r; [apply ct_ret; split; auto|apply ct_panic].
Qed.

(** ** Division of a power of two *)
Lemma ct_as : forall A (R : A -> A -> Prop) m1 m2, ct R m1 m2 -> ct R m1 m2.
Proof. auto. Qed.
Lemma zlen2 : forall a b a' b' : Z, zlen [a; b] = zlen [a'; b'].
Proof. reflexivity. Qed.
Ltac p2_lp := idtac;
  lazymatch goal with
  | |- @ct _ (mp * Z * Z * Z * Z * Z) _ _ _ =>
    apply (ct_as _ (fun p q : mp * Z * Z * Z * Z * Z =>
      same_shape (fst (fst (fst (fst (fst p))))) (fst (fst (fst (fst (fst q))))) /\ snd (fst p) = snd (fst q)));
    ct_auto
  | |- @ct _ (list Z * Z * Z * Z) _ (zfor _ _ _ _) _ =>
    apply (ct_for _ (fun p q : list Z * Z * Z * Z =>
      zlen (fst (fst (fst q))) = zlen (fst (fst (fst p))) /\ snd p = snd q));
      [ct_pub|ct_pub|cbn; auto|intros ? ? ? ? ?; ct_norm; ct_auto]
  end.
#[local] Hint Extern 0 (zlen (_ :: _) = zlen (_ :: _)) => reflexivity : ct.
#[local] Hint Resolve ct_znth ct_zupd : ct.

Definition p2_rel (q0 : option mp) (p q : mp * Z * Z * option mp * bool) : Prop :=
  same_shape (fst (fst (fst (fst p)))) (fst (fst (fst (fst q)))) /\ opt_shape (snd (fst p)) (snd (fst q)) /\
  snd p = false /\ snd q = false /\ opt_shape q0 (snd (fst p)).
Lemma rct_pow2_step : forall d e n j s t q0, dv_shape d e -> p2_rel q0 s t -> q_has q0 j ->
  ct (p2_rel q0) (div_pow2_step d n j s) (div_pow2_step e n j t).
Proof.
  intros d e n j [[[[u x] y] q] f] [[[[u' x'] y'] q'] f'] q0 Hd (H1 & H2 & H3 & H4 & H5) Hq.
  cbn [fst snd] in *. subst f f'.
  pose proof (q_has_shape q0 q j H5 Hq) as Hq'.
  unfold div_pow2_step, p2_rel. ct_auto_l p2_lp. all: eauto using opt_trans.
Qed.
Lemma rct_div_pow2 : forall n r r' d e q q', same_shape r r' -> dv_shape d e ->
  opt_shape q q' -> (forall len, returns (virtual_pow2_len n) len -> q_room q (ct_mp_nlimbs (len + 1 - dv_len d))) ->
  ct (fun p p' => fst (fst p) = fst (fst p') /\ same_shape (snd (fst p)) (snd (fst p')) /\
       opt_shape (snd p) (snd p'))
    (ct_div_pow2_mp n r d q) (ct_div_pow2_mp n r' e q').
Proof.
  intros n r r' d e q q' Hr Hd Hq HR. unfold ct_div_pow2_mp. cbv zeta.
  rewrite (shape_len r r' Hr), <- (proj2 Hd).
  eapply ct_bind_r; [apply ct_refl; reflexivity|]. intros len ? <- LEN _. specialize (HR len LEN).
  eapply ct_bind; [apply rct_q_short; auto; exact Hq|]. intros s ? <-.
  destruct s; [apply ct_ret; cbn; auto|].
  apply ct_tick; [reflexivity|]. apply ct_if; [reflexivity|intros _; apply ct_ret; cbn; auto|]; intros _.
  eapply ct_bind; [ct_leaf fail|]. intros r1 r1' Hr1. ct_norm.
  eapply ct_bind; [apply ct_refl; reflexivity|]. intros h ? <-.
  apply ct_tick; [reflexivity|]. apply ct_if; [reflexivity| |]; intros E.
  { ct_auto; auto. apply rct_q_clear; auto. }
  apply Z.ltb_ge in E.
  eapply ct_bind_r; [apply ct_refl; reflexivity|]. intros ml ? <- ML _.
  apply returns_usub in ML. destruct ML as [[_ ->]|[? _]]; [|lia].
  eapply ct_bind_r; [apply rct_q_clear; auto; exact Hq|]. intros q1 q1' Hq1 R1 _.
  apply q_clear_shape in R1. pose proof (q_room_shape _ _ _ R1 HR) as HR1.
  clear R1 HR q q' Hq.
  eapply ct_bind; [ct_leaf fail|]. intros [h1 h2] [h1' h2'] _.
  eapply ct_bind; [ct_leaf fail|]. intros [h3 h4] [h3' h4'] _.
  rewrite !(rel_dassert REL).
  eapply ct_bind with (R := fun _ _ => True).
  { ct_auto. }
  intros [s0 s1] [s0' s1'] _.
  eapply ct_bind.
  { apply ct_for_down with (R := p2_rel q1); auto.
    - repeat split; cbn; auto; try apply Hr1. apply opt_refl.
    - intros i s t Hi Hst. apply rct_pow2_step; auto. eapply q_room_has; eauto. lia. }
  intros [[[[r2 x2] y2] q2] f2] [[[[r2' x2'] y2'] q2'] f2'] (H1 & H2 & H3 & H4 & _). cbn [fst snd] in *. subst f2 f2'.
  rewrite !(rel_dassert REL). ct_auto; auto.
Qed.
Lemma rct_mod_pow2 : forall n r r' d e, same_shape r r' -> dv_shape d e ->
  ct drel (ct_mod_pow2_mp n r d) (ct_mod_pow2_mp n r' e).
Proof.
  intros n r r' d e H1 H2. unfold ct_mod_pow2_mp.
  eapply ct_bind; [apply rct_div_pow2; eauto; intros; exact I|].
  intros [[r1 a] q] [[r1' a'] q'] (E1 & E2 & E3). cbn [fst snd] in *. subst r1'.
  destruct r1 as [|[|]]; ct_auto.
Qed.

(** ** Division of a left-shifted dividend *)
Lemma rct_lsh_head : forall u u' sh sh' n n' p p', same_shape u u' -> zlen sh' = zlen sh -> n = n' -> p = p' ->
  ct drel (lsh_head u sh n p) (lsh_head u' sh' n' p').
Proof. intros; subst; unfold lsh_head; ct_auto. Qed.
#[local] Hint Resolve rct_lsh_head : ct.
Definition l1_rel (q0 : option mp) (p q : mp * list Z * option mp * bool) : Prop :=
  same_shape (fst (fst (fst p))) (fst (fst (fst q))) /\
  zlen (snd (fst (fst q))) = zlen (snd (fst (fst p))) /\ opt_shape (snd (fst p)) (snd (fst q)) /\
  snd p = false /\ snd q = false /\ opt_shape q0 (snd (fst p)).
Lemma rct_lsh_step1 : forall d e n m k j s t q0, dv_shape d e -> l1_rel q0 s t -> q_has q0 (k + j) ->
  ct (l1_rel q0) (div_lshifted_step1 d n m k j s) (div_lshifted_step1 e n m k j t).
Proof.
  intros d e n m k j [[[u x] q] f] [[[u' x'] q'] f'] q0 Hd (H1 & H0 & H2 & H3 & H4 & H5) Hq.
  cbn [fst snd] in *. subst f f'.
  pose proof (q_has_shape q0 q (k + j) H5 Hq) as Hq'.
  unfold div_lshifted_step1, l1_rel. ct_auto. all: eauto using opt_trans.
Qed.
Definition l2_rel (q0 : option mp) (p q : mp * Z * option mp * bool) : Prop :=
  same_shape (fst (fst (fst p))) (fst (fst (fst q))) /\
  opt_shape (snd (fst p)) (snd (fst q)) /\
  snd p = false /\ snd q = false /\ opt_shape q0 (snd (fst p)).
Lemma rct_lsh_step2 : forall d e n j s t q0, dv_shape d e -> l2_rel q0 s t -> q_has q0 j ->
  ct (l2_rel q0) (div_lshifted_step2 d n j s) (div_lshifted_step2 e n j t).
Proof.
  intros d e n j [[[u x] q] f] [[[u' x'] q'] f'] q0 Hd (H1 & H2 & H3 & H4 & H5) Hq.
  cbn [fst snd] in *. subst f f'.
  pose proof (q_has_shape q0 q j H5 Hq) as Hq'.
  unfold div_lshifted_step2, l2_rel. ct_auto. all: eauto using opt_trans.
Qed.
Lemma uadd_val : forall a b r, returns (uadd a b) r -> 0 <= a + b < 2 ^ UW -> r = a + b.
Proof.
  intros a b r H HB. unfold uadd, ovf in H. destruct (Z.leb_spec 0 (a + b)); [|lia]. destruct (Z.ltb_spec (a + b) (2 ^ UW)); [|lia]. injection H as <-. auto.
Qed.
Lemma rct_div_lsh : forall u u' ul sl d e q q', same_shape u u' -> dv_shape d e ->
  0 <= ul <= mp_len u -> 0 <= sl ->
  opt_shape q q' -> q = None \/ (1 <= dv_len d /\ ul + sl + LB < 2 ^ UW /\ q_room q (ct_mp_nlimbs (ul + sl + 1 - dv_len d))) ->
  ct (fun p p' => fst (fst p) = fst (fst p') /\ same_shape (snd (fst p)) (snd (fst p')) /\
       opt_shape (snd p) (snd p'))
    (ct_div_lshifted_mp_mp u ul sl d q) (ct_div_lshifted_mp_mp u' ul sl e q').
Proof.
  intros u u' ul sl d e q q' Hu Hd Hul Hsl Hq HR. unfold ct_div_lshifted_mp_mp. cbv zeta.
  rewrite !(rel_dassert REL).
  rewrite (shape_len u u' Hu), <- (proj2 Hd).
  pose proof LB_pos as LBP.
  eapply ct_bind_r; [apply ct_refl; reflexivity|]. intros vl ? <- VL _.
  assert (HV : q = None \/ (vl = ul + sl /\ 1 <= dv_len d /\ ul + sl + LB < 2 ^ UW /\ q_room q (ct_mp_nlimbs (ul + sl + 1 - dv_len d)))).
  { destruct HR as [HR|(HR0 & HR1 & HR2)]; [auto|]. right. rewrite (uadd_val ul sl vl) by (auto; lia). auto. }
  clear HR VL.
  eapply ct_bind; [apply rct_q_short; auto; exact Hq|]. intros s ? <-.
  destruct s; [apply ct_ret; cbn; auto|].
  apply ct_tick; [reflexivity|]. apply ct_if; [reflexivity|intros _; apply ct_ret; cbn; auto|]; intros E0.
  apply ct_tick; [reflexivity|]. apply ct_if; [reflexivity| |]; intros E.
  { ct_auto; auto. apply rct_q_clear; auto. }
  apply Z.ltb_ge in E, E0.
  eapply ct_bind_r; [apply ct_refl; reflexivity|]. intros vx ? <- VX _.
  eapply ct_bind_r; [apply ct_refl; reflexivity|]. intros ml ? <- ML _.
  eapply ct_bind_r; [apply ct_refl; reflexivity|]. intros m ? <- HM _.
  eapply ct_bind_r; [apply rct_q_clear; auto; exact Hq|]. intros q1 q1' Hq1 R1 _.
  apply q_clear_shape in R1.
  assert (HR1 : q1 = None \/ (m = ct_mp_nlimbs (ul + sl + 1 - dv_len d) /\ q_room q1 m /\ dv_len d <= ul + sl)).
  { destruct HV as [->|(-> & HD1 & HB & HV)]; [left; destruct q1; [contradiction|auto]|]. right.
    apply uadd_val in VX; [|lia]. subst vx. apply returns_usub in ML. destruct ML as [[_ ->]|[? _]]; [|lia].
    assert (M : m = ct_mp_nlimbs (ul + sl + 1 - dv_len d)).
    { unfold unlimbs in HM. rinv HM. apply uadd_val in E1; [|lia]. subst x. rinv HM. apply returns_usub in E1. injection HM as <-. destruct E1 as [[_ ->]|[? _]]; [reflexivity|lia]. }
    rewrite M. split; auto. split; auto. eapply q_room_shape; eauto. }
  clear R1 q q' Hq HV VX ML HM.
  pose proof (Z.mod_pos_bound sl LB LB_pos) as Hm.
  pose proof (Z.mod_le sl LB Hsl LB_pos) as Hm1.
  eapply ct_bind_r; [apply ct_refl; reflexivity|]. intros tl ? <- TL _.
  apply returns_usub in TL. destruct TL as [[_ ->]|[? _]]; [|lia].
  eapply ct_bind_r; [apply ct_refl; reflexivity|]. intros ro ? <- RO _.
  apply returns_usub in RO. destruct RO as [[_ ->]|[? _]]; [|lia].
  eapply ct_bind_r; [apply ct_refl; reflexivity|]. intros ro ? <- RO _.
  apply returns_usub in RO. destruct RO as [[_ ->]|[? _]]; [|lia].
  assert (HN : forall x, 0 <= x -> x <= ct_mp_nlimbs x * LB < x + LB).
  { intros x Hx. unfold ct_mp_nlimbs. pose proof LB_pos.
    assert (L0 : LB <> 0) by lia. pose proof (Z.div_mod (x + LB - 1) LB L0). pose proof (Z.mod_pos_bound (x + LB - 1) LB LB_pos). lia. }
  assert (HN1 : 0 <= mp_len u - ul + LB - sl mod LB + 1) by lia. apply HN in HN1.
  eapply ct_bind_r; [apply ct_refl; reflexivity|]. intros ro ? <- RO _.
  apply returns_usub in RO. destruct RO as [[_ ->]|[Hx _]]; [|pose proof LB_pos; nia].
  set (head := Z.min _ _ + _).
  rewrite !(rel_dassert REL).
  eapply ct_bind_r; [apply ct_refl; reflexivity|]. intros tl ? <- TL _.
  apply returns_usub in TL. destruct TL as [[TL0 ->]|[? _]]; [|unfold head in *; lia].
  assert (HQ : 0 <= (sl - head) / LB /\ (q1 = None \/ (q_room q1 m /\ (sl - head) / LB <= m))).
  { split; [apply Z.div_pos; [lia|apply LB_pos]|]. destruct HR1 as [|(-> & HR1 & HL)]; [auto|right; split; [auto|]].
    assert (HT : sl - head = 0 \/ sl - head <= ul + sl + 1 - dv_len d).
    { unfold head. destruct (Z.min_spec ((ct_mp_nlimbs (mp_len u - ul + LB - sl mod LB + 1) - 1) * LB) (sl - sl mod LB)) as [[_ ->]|[_ ->]]; lia. }
    assert (HN2 : 0 <= ul + sl + 1 - dv_len d) by lia. apply HN in HN2.
    apply Z.div_le_upper_bound; [apply LB_pos|]. pose proof LB_pos. lia. }
  clear HR1.
  clearbody head. clear HN HN1.
  eapply ct_bind with (R := fun p q => same_shape (fst p) (fst q)).
  { eapply ct_weaken; [apply rct_lshift; auto|]. intros [? ?] [? ?] []; auto. }
  clear u u' Hu Hul E0.
  intros [u o1] [u' o1'] Hu. cbn [fst] in Hu.
  rewrite !(shape_len u u' Hu).
  eapply ct_bind; [apply ct_refl; reflexivity|]. intros la ? <-.
  eapply ct_bind; [ct_leaf fail|]. intros [s0 s1] [s0' s1'] _.
  eapply ct_bind; [ct_leaf fail|]. intros [u1 c1] [u1' c1'] [Hu1 _]. cbn [fst] in Hu1. change (same_shape u1 u1') in Hu1.
  eapply ct_bind; [ct_leaf fail|]. intros [c2 s2] [c2' s2'] _.
  eapply ct_bind; [ct_leaf fail|]. intros [c3 s3] [c3' s3'] _.
  eapply ct_bind_r; [apply ct_refl; reflexivity|]. intros qh ? <- QH _.
  assert (HQ1 : forall i, 0 <= i < qh -> q_has q1 ((sl - head) / LB + i)).
  { intros i Hi. destruct HQ as [_ [->|[HQ1 HQ2]]]; [exact I|]. apply returns_usub in QH. destruct QH as [[_ ->]|[? _]]; [|lia].
    eapply q_room_has; eauto. lia. }
  assert (HQ2 : forall i, 0 <= i < (sl - head) / LB -> q_has q1 i).
  { intros i Hi. destruct HQ as [_ [->|[HQ2 HQ3]]]; [exact I|]. eapply q_room_has; eauto. lia. }
  eapply ct_bind.
  { apply ct_for_down with (R := l1_rel q1); auto.
    - repeat split; cbn; auto; try apply Hu1. apply opt_refl.
    - intros i s t Hi Hst. apply rct_lsh_step1; auto. }
  intros [[[u2 x2] q2] f2] [[[u2' x2'] q2'] f2'] (H1 & H2 & H3 & H4 & H5 & H6). cbn [fst snd] in *. subst f2 f2'.
  rewrite !(rel_dassert REL).
  eapply ct_bind; [ct_leaf fail|]. intros u3 u3' Hu3. change (same_shape u3 u3') in Hu3.
  eapply ct_bind with (R := fun _ _ => True).
  { apply ct_for with (R := fun _ _ => True); auto. intros. unfold dassert_m. rewrite REL. apply ct_ret. auto. }
  intros _ _ _.
  eapply ct_bind; [ct_leaf fail|]. intros x3 x3' _.
  eapply ct_bind.
  { apply ct_for_down with (R := l2_rel q1); auto.
    - repeat split; cbn; auto; try apply Hu3.
    - intros i s t Hi Hst. apply rct_lsh_step2; auto. }
  intros [[[u4 x4] q4] f4] [[[u4' x4'] q4'] f4'] (K1 & K2 & K3 & K4 & K5). cbn [fst snd] in *. subst f4 f4'.
  ct_auto; auto.
Qed.
Lemma rct_mod_lsh : forall u u' ul sl d e, same_shape u u' -> dv_shape d e ->
  0 <= ul <= mp_len u -> 0 <= sl ->
  ct drel (ct_mod_lshifted_mp_mp u ul sl d) (ct_mod_lshifted_mp_mp u' ul sl e).
Proof.
  intros u u' ul sl d e H1 H2 H3 H4. unfold ct_mod_lshifted_mp_mp.
  eapply ct_bind; [apply rct_div_lsh; eauto; exact I|].
  intros [[r1 a] q] [[r1' a'] q'] (E1 & E2 & E3). cbn [fst snd] in *. subst r1'.
  destruct r1 as [|[|]]; ct_auto.
Qed.

(** ** Division by a single limb of public length *)
Lemma rct_div_l : forall u u' v w q q', same_shape u u' -> opt_shape q q' ->
  (q = None \/ snd (ct_find_last_set_byte_l (ld_v v)) = snd (ct_find_last_set_byte_l (ld_v w))) ->
  ct (fun p p' => drel (fst p) (fst p') /\ opt_shape (snd p) (snd p')) (ct_div_mp_l u v q) (ct_div_mp_l u' w q').
Proof.
  intros u u' v w q q' Hu Hq HL. unfold ct_div_mp_l. cbv zeta. rewrite (shape_len u u' Hu).
  apply ct_tick; [reflexivity|]. apply ct_if; [reflexivity|intros _; apply ct_ret; split; [exact I|exact Hq]|intros E0].
  eapply ct_bind with (R := fun s t : (Monad.result Z div_err * option mp) + option mp => match s, t with
    | inl p, inl p' => drel (fst p) (fst p') /\ opt_shape (snd p) (snd p')
    | inr q, inr q' => opt_shape q q'
    | _, _ => False end).
  - destruct q as [q|], q' as [q'|]; cbn [opt_shape] in Hq; try tauto; [|apply ct_ret; cbn; auto].
    destruct HL as [HL|HL]; [discriminate HL|].
    eapply ct_bind_r; [ct_leaf fail|]. intros x y _ R1 R2. unfold returns in R1, R2.
    rewrite HL, R2 in R1. injection R1 as ->. rewrite !(shape_len q q' Hq).
    apply ct_tick; [reflexivity|]. apply ct_if; [reflexivity|intros _; apply ct_ret; cbn; auto|intros E1].
    apply ct_tick; [reflexivity|]. apply ct_if; [reflexivity|intros _|intros E2]; ct_auto; auto.
  - intros [[r s]|s] [[r' s']|s'] H; try tauto.
    + apply ct_ret. exact H.
    + eapply ct_bind.
      { apply ct_for_down with (R := fun p q => opt_shape (fst p) (fst q)); auto.
        intros i [q1 h1] [q1' h1'] Hi H1. cbn [fst] in H1.
        eapply ct_bind; [ct_leaf fail|]. intros x x' _.
        eapply ct_bind; [ct_leaf fail|]. intros [y z] [y' z'] _.
        destruct q1, q1'; cbn [opt_shape] in H1; try tauto; ct_auto; auto. }
      intros [q1 h1] [q1' h1'] H1. apply ct_ret. split; [exact I|exact H1].
Qed.
Lemma rct_mod_l : forall u u' v w, same_shape u u' -> ct drel (ct_mod_mp_l u v) (ct_mod_mp_l u' w).
Proof.
  intros u u' v w Hu. unfold ct_mod_mp_l.
  eapply ct_bind; [apply rct_div_l; auto; exact I|].
  intros [[r|e] q] [[r'|e'] q'] [H _]; cbn in H; try tauto; ct_auto.
Qed.
End Div.
