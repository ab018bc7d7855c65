(** Proofs of the theorems in ThmDiv.v. *)
From Coq Require Import ZArith List Bool Lia.
Require Import Verif.Spec Verif.Monad Verif.Base Verif.Wp Verif.ModelLimb Verif.LimbFacts Verif.LimbFacts2 Verif.LDivFacts Verif.ModelBuf Verif.SpecBuf
  Verif.BufFacts Verif.BufFacts2 Verif.BufFacts3 Verif.BufProofs Verif.ThmLimb Verif.ModelDiv Verif.SpecDiv Verif.DivFacts Verif.DivFacts2 Verif.DivFacts3 Verif.DivFacts4 Verif.DivFacts5.
Import ListNotations.
Open Scope Z_scope.

Lemma returns_wp : forall A (m : M A) a (Q : A -> Prop), wp m Q -> returns m a -> Q a.
Proof. intros A [t [x|]] a Q H E; unfold wp, returns in *; cbn in *; [injection E as ->; auto|tauto]. Qed.
Lemma returns_bind : forall A C (m : M A) (f : A -> M C) r, returns (bind m f) r -> exists a, returns m a /\ returns (f a) r.
Proof. intros A C [t [x|]] f r H; unfold returns, bind in *; cbn in *; [eauto|discriminate]. Qed.
Lemma returns_mif : forall A (b : bool) (m1 m2 : M A) r, returns (mif b then m1 else m2) r -> returns (if b then m1 else m2) r.
Proof. intros A b m1 m2 r H. unfold returns in *. exact H. Qed.

Section S.
Context {c : cfg}.

Lemma new_zero_not_ok : forall v d, mp_ok v -> mpval v = 0 -> ~ returns (mp_divisor_new v None) (Ok d).
Proof.
  intros v d Hv V0 H. unfold mp_divisor_new in H. apply returns_mif in H.
  destruct (mp_is_empty v); [discriminate H|].
  apply returns_bind in H. destruct H as (lh & H1 & H).
  apply returns_bind in H1. destruct H1 as (vl & H1 & H2).
  assert (E : vl = 0). { refine (returns_wp _ _ vl (fun x => x = 0) _ H1). apply wp_find_last_set_byte; auto. rewrite V0. reflexivity. }
  apply returns_bind in H2. destruct H2 as (i & _ & H2). apply returns_bind in H2. destruct H2 as (vh & _ & H2).
  injection H2 as <-. subst vl. apply returns_mif in H.
  rewrite ct_is_zero_usize_eq in H by (pose proof UW_gt; unfold isu; lia). discriminate H.
Qed.

Lemma divisor_ok : forall d D, divisor_for d D -> dv_ok d /\ dval d = D.
Proof.
  intros d D (v & dec & Hv & Hd & HR & ->). destruct (Z.lt_ge_cases 0 (mpval v - dec_val dec)) as [P|N].
  - assert (X : wp (mp_divisor_new v dec) (fun r => r = Ok d -> dv_ok d /\ dval d = mpval v - dec_val dec)).
    { apply wp_divisor_new; auto.
      + intros -> E. cbn in P. lia.
      + intros. unfold dec_val in P. lia.
      + intros _ d' H1 H2 H3 E. injection E as ->. split; auto. unfold dval, dv_dec0. rewrite H2, H3. reflexivity. }
    exact (returns_wp _ _ _ _ X HR eq_refl).
  - exfalso. pose proof (mpval_nonneg v Hv). destruct dec as [x|].
    + assert (X : wp (mp_divisor_new v (Some x)) (fun r => r <> Ok d)).
      { apply wp_divisor_new; auto; try discriminate. intros P. cbn in N. lia. }
      exact (returns_wp _ _ _ _ X HR eq_refl).
    + cbn in N. apply (new_zero_not_ok v d); auto. lia.
Qed.

Lemma divisor_len : forall d D n, dv_ok d -> dval d = D -> byte_len D n -> dv_len d = n.
Proof.
  intros d D n Hd E [N1 N2]. pose proof (dvo_bytes _ Hd) as Y. pose proof (dvo_len _ Hd). rewrite E in Y.
  destruct (Z.lt_trichotomy (dv_len d) n) as [L|[L|L]]; auto; exfalso.
  - pose proof (Z.pow_le_mono_r 256 (dv_len d) (n - 1)). lia.
  - pose proof (Z.pow_le_mono_r 256 n (dv_len d - 1)). lia.
Qed.
End S.

Lemma new_correct : forall (c : cfg) v dec, mp_ok v -> 0 <= dec_val dec < B ->
  (0 < mpval v - dec_val dec -> exists d, returns (mp_divisor_new v dec) (Ok d)) /\
  (mpval v - dec_val dec <= 0 -> (dec = None -> mp_len v = 0) -> returns (mp_divisor_new v dec) (Err DivisorIsZero)).
Proof.
  intros c v dec Hv Hd. split.
  - intros P. assert (X : wp (mp_divisor_new v dec) (fun r => exists d, r = Ok d)).
    { apply wp_divisor_new; auto.
      + intros -> E. cbn in P. lia.
      + intros. unfold dec_val in P. lia.
      + intros. eauto. }
    apply wp_returns in X. destruct X as (r & R & d & ->). eauto.
  - intros N HN. assert (X : wp (mp_divisor_new v dec) (fun r => r = Err DivisorIsZero)).
    { apply wp_divisor_new; auto. intros. unfold dec_val in N. lia. }
    apply wp_returns in X. destruct X as (r & R & ->). eauto.
Qed.

Lemma new_sound : forall (c : cfg) v dec d, mp_ok v -> 0 <= dec_val dec < B ->
  returns (mp_divisor_new v dec) (Ok d) -> 0 < mpval v - dec_val dec.
Proof.
  intros c v dec d Hv Hd HR. destruct (divisor_ok d (mpval v - dec_val dec)) as [H1 H2].
  { exists v, dec. auto. }
  rewrite <- H2. apply dv_pos. auto.
Qed.

Lemma div_correct : forall (c : cfg) u_h u_l d D n q, u_ok u_h u_l -> divisor_for d D -> byte_len D n -> q_ok q ->
  let U := uval u_h u_l in
  match q with Some b => mp_len u_l + uhlen u_h <= mp_len b + n | None => True end -> q_fits q (U / D) ->
  yields (ct_div_mp_mp u_h u_l d q) (fun '(res, u_h', u_l', q') =>
    res = Ok tt /\ u_ok u_h' u_l' /\ same_shape u_l u_l' /\ o_same u_h u_h' /\ o_same q q' /\
    uval u_h' u_l' = U mod D /\ q_is q' (U / D)).
Proof.
  intros c u_h u_l d D n q Hu Hd Hn Hq U HL HF. apply divisor_ok in Hd. destruct Hd as [Hd E].
  pose proof (divisor_len _ _ _ Hd E Hn) as EL. apply wp_yields. apply wp_div_mp_mp; auto.
  - right. left. rewrite E. exact HF.
  - intros SH. destruct q; [|contradiction]. lia.
  - intros _ _ u_h' u_l' q' H1 H2 H3 H4 H5 H6. rewrite E in *. split; auto. split; [|auto 10].
    split; auto. destruct Hu as [Hu1 Hu2], H2 as [K1 _]. destruct u_h, u_h'; cbn in *; try contradiction; auto. destruct H3 as [O3 [K3 _]], Hu2. split; auto. congruence.
  - intros _ OV. exfalso. rewrite E in OV. unfold qover in OV. destruct q; [|contradiction]. cbn in HF, Hq. fold U in OV.
    pose proof (p256_B (mp_len m) (mp_len_nonneg m)). unfold nlimbs in OV. lia.
Qed.

Lemma div_short_correct : forall (c : cfg) u_h u_l d D n b, u_ok u_h u_l -> divisor_for d D -> byte_len D n -> mp_ok b ->
  mp_len b + n < mp_len u_l + uhlen u_h ->
  returns (ct_div_mp_mp u_h u_l d (Some b)) (Err InsufficientQuotientSpace, u_h, u_l, Some b).
Proof.
  intros c u_h u_l d D n b Hu Hd Hn Hq HL. apply divisor_ok in Hd. destruct Hd as [Hd E].
  pose proof (divisor_len _ _ _ Hd E Hn) as EL.
  assert (X : wp (ct_div_mp_mp u_h u_l d (Some b)) (fun r => r = (Err InsufficientQuotientSpace, u_h, u_l, Some b))).
  { apply wp_div_mp_mp; auto.
    - left. lia.
    - intros NS. lia.
    - intros NS. lia. }
  apply wp_returns in X. destruct X as (r & R & ->). auto.
Qed.

Lemma div_over_correct : forall (c : cfg) u_h u_l d D b, u_ok u_h u_l -> divisor_for d D -> mp_ok b ->
  B ^ nlimbs b <= uval u_h u_l / D ->
  yields (ct_div_mp_mp u_h u_l d (Some b)) (fun '(res, u_h', u_l', q') =>
    res = Err InsufficientQuotientSpace /\ same_shape u_l u_l' /\ o_same u_h u_h' /\ o_same (Some b) q').
Proof.
  intros c u_h u_l d D b Hu Hd Hq HO. apply divisor_ok in Hd. destruct Hd as [Hd E].
  apply wp_yields. apply wp_div_mp_mp; auto.
  - right. right. rewrite E. exact HO.
  - intros SH. split; auto. split; [apply shape_refl|]. split; [|split; [auto|apply shape_refl]]. destruct u_h; cbn; auto. split; [apply Hu|apply shape_refl].
  - intros _ FT. exfalso. rewrite E in FT. cbn in FT. pose proof (p256_B (mp_len b) (mp_len_nonneg b)). unfold nlimbs in HO. lia.
Qed.

Lemma mod_correct : forall (c : cfg) u_h u_l d D, u_ok u_h u_l -> divisor_for d D ->
  yields (ct_mod_mp_mp u_h u_l d) (fun '(u_h', u_l') =>
    u_ok u_h' u_l' /\ same_shape u_l u_l' /\ o_same u_h u_h' /\ uval u_h' u_l' = uval u_h u_l mod D).
Proof.
  intros c u_h u_l d D Hu Hd. apply wp_yields. unfold ct_mod_mp_mp. apply wp_bind. apply divisor_ok in Hd. destruct Hd as [Hd E].
  apply wp_div_mp_mp; auto; cbn; try tauto.
  - intros _ _ u_h' u_l' q' H1 H2 H3 H4 H5 H6. apply wp_ret. rewrite E in *. split; auto.
    split; auto. destruct Hu as [Hu1 Hu2], H2 as [K1 _]. destruct u_h, u_h'; cbn in *; try contradiction; auto. destruct H3 as [O3 [K3 _]], Hu2. split; auto. congruence.
Qed.

Lemma ldivisor_ok : forall (c : cfg) d v, limb_divisor_for d v -> ld_ok d v.
Proof.
  intros c d v [Hv HR]. assert (X : wp (ct_l_divisor_new v) (fun r => r = Ok d -> ld_ok d v)).
  { apply wp_l_divisor_new; auto; [discriminate|]. intros d' _ H E. injection E as ->. auto. }
  exact (returns_wp _ _ _ _ X HR eq_refl).
Qed.

Lemma div_l_correct : forall (c : cfg) u d v n q, mp_ok u -> limb_divisor_for d v -> byte_len v n -> q_ok q -> 1 <= mp_len u ->
  match q with Some b => mp_len u + 1 <= mp_len b + n /\ nlimbs u <= nlimbs b | None => True end ->
  yields (ct_div_mp_l u d q) (fun '(res, q') =>
    res = Ok (mpval u mod v) /\ o_same q q' /\ q_is q' (mpval u / v)).
Proof.
  intros c u d v n q Hu Hd [N1 N2] Hq HL HQ. apply ldivisor_ok in Hd. apply wp_yields.
  apply wp_div_mp_l with (v := v) (vl := n); auto.
  - right. right. destruct q; cbn; tauto.
  - intros SH. exfalso. destruct q; [lia|auto].
Qed.

Lemma div_l_short_correct : forall (c : cfg) u d v n b, mp_ok u -> limb_divisor_for d v -> byte_len v n -> mp_ok b -> 1 <= mp_len u ->
  mp_len b + n < mp_len u + 1 -> returns (ct_div_mp_l u d (Some b)) (Err InsufficientQuotientSpace, Some b).
Proof.
  intros c u d v n b Hu Hd [N1 N2] Hq HL HQ. apply ldivisor_ok in Hd.
  assert (X : wp (ct_div_mp_l u d (Some b)) (fun r => r = (Err InsufficientQuotientSpace, Some b))).
  { apply wp_div_mp_l with (v := v) (vl := n); auto. intros NS. contradiction. }
  apply wp_returns in X. destruct X as (r & R & ->). auto.
Qed.

Lemma mod_l_correct : forall (c : cfg) u d v, mp_ok u -> limb_divisor_for d v -> returns (ct_mod_mp_l u d) (mpval u mod v).
Proof.
  intros c u d v Hu Hd. apply ldivisor_ok in Hd. pose proof Hd as (Hv & _).
  assert (X : wp (ct_mod_mp_l u d) (fun r => r = mpval u mod v)).
  2:{ apply wp_returns in X. destruct X as (r & R & ->). auto. }
  unfold ct_mod_mp_l. apply wp_bind. destruct (Z.eq_dec (mp_len u) 0) as [E|E].
  - unfold ct_div_mp_l. rewrite E. replace (ct_mp_nlimbs 0) with 0 by (symmetry; apply ct_mp_nlimbs_unique; pose proof LB_pos; lia).
    apply wp_mif; intros Z; [|discriminate]. apply wp_ret. pose proof (mpval_bound u Hu) as MB. rewrite E in MB. change (256 ^ 0) with 1 in MB.
    replace (mpval u) with 0 by lia. rewrite Z.mod_0_l by lia. apply wp_ret. auto.
  - pose proof (mp_len_nonneg u). pf (nbits_spec v) as NS. pf (nby_bounds v) as NY.
    apply wp_div_mp_l with (v := v) (vl := nby v); auto; try apply NY; try lia; cbn; auto.

Qed.
