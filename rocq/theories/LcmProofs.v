(** The statements of ThmLcm.v, derived from the facts. *)
From Coq Require Import ZArith List Bool Lia.
Require Import Verif.Spec Verif.Base Verif.Monad Verif.Wp Verif.Pan Verif.Wx Verif.LimbFacts Verif.ModelLimb Verif.LimbProofs Verif.ModelBuf Verif.SpecBuf Verif.BufProofs Verif.SpecMont Verif.SpecEuclid
  Verif.BufFacts Verif.BufFacts3 Verif.EuclidFacts4 Verif.ModelEuclid Verif.ModelLcm Verif.LcmFacts.
Open Scope Z_scope.

Section S.
Context {c : cfg}.

Lemma lcm_correct : forall res op0 l0 op1 l1 scr, mp_ok res -> mp_ok op0 -> mp_ok op1 -> mp_ok scr -> kind_of scr = kind_of op1 ->
  mp_len op0 = mp_len op1 -> gcd_len_ok (mp_len op0) -> 0 < l0 <= mp_len op0 -> 0 < l1 <= mp_len op1 ->
  mpval op0 < 256 ^ l0 -> mpval op1 < 256 ^ l1 -> l0 + l1 <= mp_len res -> l0 + l1 <= mp_len scr ->
  (kind_of op1 = KNE -> (l0 + l1) mod LB = 0 /\ l0 + l1 + (ct_mp_limbs_align_len (Z.max l0 l1) - Z.max l0 l1) <= mp_len res) ->
  yields (ct_lcm_mp_mp res op0 l0 op1 l1 scr) (fun '(r, res', op0', op1', scr') =>
    r = Ok tt /\ becomes res res' (Z.lcm (mpval op0) (mpval op1)) /\
    mp_ok op0' /\ same_shape op0 op0' /\ mp_ok op1' /\ same_shape op1 op1' /\ mp_ok scr' /\ same_shape scr scr').
Proof.
  intros res op0 l0 op1 l1 scr Hr H0 H1 Hs HK HL HG L0 L1 V0 V1 LR LS HA.
  pose proof (wp_lcm res op0 l0 op1 l1 scr Hr H0 H1 Hs HK) as W. cbv zeta in W.
  rewrite (Z.min_l l0), (Z.min_l l1) in W by lia. apply wp_yields. eapply wp_mono; [apply W; auto; try lia|].
  - intros K. destruct (HA K). split; [auto|lia].
  - intros [[[[r res'] op0'] op1'] scr'] HH. exact HH.
Qed.

Lemma lcm_clamp : forall res op0 l0 op1 l1 scr,
  ct_lcm_mp_mp res op0 l0 op1 l1 scr = ct_lcm_mp_mp res op0 (Z.min l0 (mp_len op0)) op1 (Z.min l1 (mp_len op1)) scr.
Proof. intros. unfold ct_lcm_mp_mp. rewrite <- !Z.min_assoc, !Z.min_id. reflexivity. Qed.

Lemma lcm_empty : forall res op0 l0 op1 l1 scr, mp_ok res -> 0 <= l0 -> 0 <= l1 -> Z.min l0 (mp_len op0) = 0 \/ Z.min l1 (mp_len op1) = 0 ->
  yields (ct_lcm_mp_mp res op0 l0 op1 l1 scr) (fun '(r, res', op0', op1', scr') =>
    r = Ok tt /\ becomes res res' 0 /\ op0' = op0 /\ op1' = op1 /\ scr' = scr).
Proof.
  intros res op0 l0 op1 l1 scr Hr _ _ HZ. apply wp_yields. eapply wp_mono; [apply wp_lcm_zero; auto|].
  intros [[[[r res'] op0'] op1'] scr'] (x & E & HB). inversion E; subst. auto.
Qed.

Lemma lcm_errors : forall res op0 l0 op1 l1 scr, mp_ok op0 -> mp_ok op1 -> mp_ok scr -> kind_of scr = kind_of op1 ->
  0 < l0 <= mp_len op0 -> 0 < l1 <= mp_len op1 ->
  (~ mut_compat op0 op1 -> returns (ct_lcm_mp_mp res op0 l0 op1 l1 scr) (Err LcmInconsistentOperandLengths, res, op0, op1, scr)) /\
  (mut_compat op0 op1 -> debug c = false \/ mp_len op0 = mp_len op1 -> mp_len res < l0 + l1 ->
   returns (ct_lcm_mp_mp res op0 l0 op1 l1 scr) (Err LcmInsufficientResultSpace, res, op0, op1, scr)) /\
  (mut_compat op0 op1 -> debug c = false \/ mp_len op0 = mp_len op1 -> l0 + l1 <= mp_len res -> mp_len scr < l0 + l1 ->
   returns (ct_lcm_mp_mp res op0 l0 op1 l1 scr) (Err LcmInsufficientScratchSpace, res, op0, op1, scr)).
Proof.
  intros res op0 l0 op1 l1 scr H0 H1 Hs HK L0 L1. pose proof (wp_lcm_space res op0 l0 op1 l1 scr H0 H1 Hs HK) as W. cbv zeta in W.
  rewrite (Z.min_l l0), (Z.min_l l1) in W by lia. split; [|split].
  - intros HN. apply wp_ret_eq, wp_lcm_incompat; auto; lia.
  - intros HC HL HR. apply wp_ret_eq, W; auto; try lia. intros D. destruct HL; congruence.
  - intros HC HL HR HS. apply wp_ret_eq, W; auto; try lia. intros D. destruct HL; congruence.
Qed.

Lemma pan_assoc : forall A C D (m : M A) (f : A -> M C) (g : C -> M D), panics (bind (bind m f) g) -> panics (bind m (fun a => bind (f a) g)).
Proof. intros A C D [t [a|]] f g; unfold panics, bind; cbn; auto. destruct (f a) as [t1 [b|]]; cbn; auto. Qed.

Lemma stored_whole : forall b n, 0 <= n -> stored_len b n = whole_len b n.
Proof.
  intros [l|l|l] n Hn; try reflexivity. cbn [stored_len whole_len]. unfold ct_mp_limbs_align_len. pose proof LB_pos as HL.
  pf (ct_mp_nlimbs_spec n) as NS. pf (Z.div_mod (n + (LB - 1)) LB) as DM. pose proof (Z.mod_pos_bound (n + (LB - 1)) LB HL) as MB.
  set (q := (n + (LB - 1)) / LB) in *. set (k := ct_mp_nlimbs n) in *.
  assert (H1 : q * LB < (k + 1) * LB) by lia. apply Z.mul_lt_mono_pos_r in H1; [|lia].
  assert (H2 : k * LB < (q + 1) * LB) by lia. apply Z.mul_lt_mono_pos_r in H2; [|lia].
  replace q with k by lia. reflexivity.
Qed.

Lemma lcm_exact : forall res op0 l0 op1 l1 scr, mp_ok res -> mp_ok op0 -> mp_ok op1 -> mp_ok scr -> kind_of scr = kind_of op1 ->
  mut_compat op0 op1 -> gcd_len_ok (Z.max (mp_len op0) (mp_len op1)) ->
  0 < l0 -> 0 < l1 <= mp_len op1 -> Z.max l0 l1 <= mp_len op0 ->
  mpval op0 < 256 ^ l0 -> mpval op1 < 256 ^ l1 -> l0 + l1 <= mp_len res -> l0 + l1 <= mp_len scr ->
  (debug c = true -> mp_len op0 <> mp_len op1 \/ (kind_of op1 = KNE /\ (l0 + l1) mod LB <> 0) -> panics (ct_lcm_mp_mp res op0 l0 op1 l1 scr)) /\
  (debug c = false \/ (mp_len op0 = mp_len op1 /\ (kind_of op1 = KNE -> (l0 + l1) mod LB = 0)) ->
   (mp_len res < lcm_room op1 l0 l1 -> panics (ct_lcm_mp_mp res op0 l0 op1 l1 scr)) /\
   (lcm_room op1 l0 l1 <= mp_len res ->
    yields (ct_lcm_mp_mp res op0 l0 op1 l1 scr) (fun '(r, res', op0', op1', scr') =>
      r = Ok tt /\ becomes res res' (Z.lcm (mpval op0) (mpval op1)) /\
      mp_ok op0' /\ same_shape op0 op0' /\ mp_ok op1' /\ same_shape op1 op1' /\ mp_ok scr' /\ same_shape scr scr'))).
Proof.
  intros res op0 l0 op1 l1 scr Hr H0 H1 Hs HK HC HG P0 P1 HM V0 V1 LR LS. split.
  - intros HD HX. unfold ct_lcm_mp_mp. rewrite (Z.min_l l0), (Z.min_l l1) by lia.
    apply pan_mif; intros E. { exfalso. apply orb_true_iff in E. rewrite !Z.eqb_eq in E. lia. } clear E.
    apply pan_assoc. apply pan_wp, wp_mut_compat; auto. apply pan_wp, wp_tick.
    destruct (Z.eq_dec (mp_len op0) (mp_len op1)) as [EL|NL].
    2:{ apply pan_l, pan_dassert; auto. apply Z.eqb_neq. auto. }
    destruct HX as [HX|[K HX]]; [contradiction|].
    apply pan_wp, wp_dassert; [apply Z.eqb_eq; auto|].
    apply pan_mif; intros E. { exfalso. apply Z.ltb_lt in E. lia. } clear E.
    apply pan_mif; intros E. { exfalso. apply Z.ltb_lt in E. pf (backing_ok scr op1 (l0 + l1) HK) as BO. lia. } clear E.
    apply pan_l. rewrite K in HK. destruct scr as [l|l|l]; try discriminate. cbn [mp_take].
    apply pan_l, pan_dassert; auto. apply Z.eqb_neq. auto.
  - intros HX. pose proof (wx_lcm res op0 l0 op1 l1 scr Hr H0 H1 Hs HK) as W. cbv zeta in W. rewrite (Z.min_l l0), (Z.min_l l1) in W by lia.
    lapply W; [clear W; intros W|lia]. lapply W; [clear W; intros W|lia]. lapply W; [clear W; intros W|auto].
    lapply W; [clear W; intros W|intros D; destruct HX as [HX|[HX _]]; congruence]. lapply W; [clear W; intros W|auto].
    lapply W; [clear W; intros W|lia]. lapply W; [clear W; intros W|auto]. lapply W; [clear W; intros W|auto].
    lapply W; [clear W; intros W|auto]. lapply W; [clear W; intros W|auto].
    lapply W; [clear W; intros W|intros K D; destruct HX as [HX|[_ HX]]; [congruence|auto]].
    unfold lcm_room. rewrite !stored_whole by lia. split; intros HR.
    + replace (_ <? _) with true in W by (symmetry; apply Z.ltb_lt; lia). apply wx_pan. eapply wx_mono; [exact W|]. intros o [X _]. discriminate.
    + replace (_ <? _) with false in W by (symmetry; apply Z.ltb_ge; lia). apply wp_wx in W. apply wp_yields. eapply wp_mono; [exact W|].
      intros [[[[r a] b] d] e] [_ H]. exact H.
Qed.

End S.
