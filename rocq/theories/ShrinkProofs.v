(** Proofs for C59: splitting and shrinking buffers. *)
From Coq Require Import ZArith List Bool Lia.
Require Import Verif.Spec Verif.Monad Verif.Base Verif.Wp Verif.Pan Verif.ModelLimb Verif.LimbFacts Verif.LimbFacts2
  Verif.ModelBuf Verif.SpecBuf Verif.BufFacts Verif.BufFacts2 Verif.ModelAccess Verif.SpecAccess Verif.AccessFacts Verif.BufFacts3 Verif.SpecShrink Verif.BufProofs.
Import ListNotations.
Open Scope Z_scope.

Section Facts.
Context {c : cfg}.

Lemma yields_imp : forall A (m : M A) (P Q : A -> Prop), yields m P -> (forall a, P a -> Q a) -> wp m Q.
Proof. intros A m P Q (r & R & H) HI. unfold wp. rewrite R. auto. Qed.
Lemma slice_pan : forall A (l : list A) a b, ~ (0 <= a <= b /\ b <= zlen l) -> panics (slice l a b).
Proof.
  intros A l a b H. unfold slice. destruct ((0 <=? a) && (a <=? b) && (b <=? zlen l)) eqn:E; [|reflexivity].
  exfalso. apply H. repeat rewrite andb_true_iff in E. rewrite !Z.leb_le in E. lia.
Qed.
Lemma ne_elements : forall m, 0 <= m -> ne_elements_for_len m = ct_mp_nlimbs m.
Proof.
  intros m Hm. unfold ne_elements_for_len, ct_mp_limbs_align_len. pose proof LB_pos. rewrite Z.mod_mul, Z.div_mul by lia. cbn [Z.eqb negb]. lia.
Qed.

Lemma priv_view : forall b n, mp_ok b -> 0 <= n -> yields (mp_shrink_to_priv b (Z.min n (mp_len b))) (low_view b n).
Proof.
  intros b n [Hb Hs] Hn. set (m := Z.min n (mp_len b)). pose proof (mp_len_nonneg b) as L0. pose proof LB_pos as HLB. assert (M0 : 0 <= m <= mp_len b) by (unfold m; clear -L0 Hn; lia).
  apply wp_yields. destruct b as [l|l|l]; cbn [mp_shrink_to_priv mp_len] in *; unfold low_view; cbv zeta; cbn [kind_of mp_len]; fold m.
  - apply wp_bind, wp_usub; [lia|]. apply wp_bind, wp_slice; [lia|lia|]. apply wp_ret. set (lo := firstn _ (skipn _ l)).
    assert (LL : zlen lo = m). { unfold lo. rewrite seg_length_z; lia. }
    cbn [kind_of mp_len]. rewrite LL. split; [split; [apply digits_ok_firstn, digits_ok_skipn; auto|cbn [mp_len]; lia]|]. split; [reflexivity|]. split; [reflexivity|].
    cbn [mpval]. unfold be_val, lo. rewrite rev_seg by lia. replace (zlen l - (zlen l - m)) with m by lia.
    rewrite Z.sub_diag. rewrite seg_val by (try apply digits_ok_rev; auto; try lia; rewrite zlen_rev; lia). rewrite Z.pow_0_r, Z.div_1_r. auto.
  - apply wp_bind, wp_slice; [lia|lia|]. apply wp_ret. rewrite Z.sub_0_r. change (skipn (Z.to_nat 0) l) with l. cbn [kind_of mp_len].
    assert (LL : zlen (firstn (Z.to_nat m) l) = m) by (apply firstn_length_z; lia).
    rewrite LL. split; [split; [apply digits_ok_firstn; auto|cbn [mp_len]; lia]|]. split; [reflexivity|]. split; [reflexivity|].
    cbn [mpval]. unfold le_val. rewrite digits_val_firstn, Z2Nat.id by (auto; unfold zlen in *; lia). reflexivity.
  - rewrite ne_elements by lia. pose proof (ct_mp_nlimbs_spec m ltac:(lia)) as NS. set (k := ct_mp_nlimbs m) in *.
    assert (KL : k <= zlen l) by nia.
    apply wp_bind, wp_slice; [lia|lia|]. apply wp_ret. rewrite Z.sub_0_r. change (skipn (Z.to_nat 0) l) with l. cbn [kind_of mp_len].
    assert (LL : zlen (firstn (Z.to_nat k) l) = k) by (apply firstn_length_z; lia).
    rewrite LL. split; [split; [apply digits_ok_firstn; auto|cbn [mp_len]; nia]|]. split; [reflexivity|].
    split; [split; [apply Z.mod_mul; lia|nia]|].
    cbn [mpval]. change (2 ^ (8 * LB)) with B in *. rewrite digits_val_firstn, Z2Nat.id by (auto; try apply B_pos; unfold zlen in *; lia). rewrite Bpow256 by lia. reflexivity.
Qed.

Lemma view_len : forall b n v, mp_ok b -> 0 <= n -> low_view b n v -> Z.min n (mp_len b) <= mp_len v <= mp_len b.
Proof.
  intros b n v Hb Hn (_ & K & L & _). pose proof (mp_len_nonneg b). pose proof LB_pos. destruct b as [l|l|l]; cbn [kind_of] in *; try lia.
  destruct v as [v|v|v]; try discriminate K. cbn [mp_len] in *. destruct (Z.min_spec n (zlen l * LB)) as [[? E]|[? E]]; rewrite E in *; clear E; (assert (zlen v < zlen l + 1) by nia; nia).
Qed.

Lemma shrink_ok : forall b n, mp_ok b -> 0 <= n -> mpval b < 256 ^ n -> yields (mp_shrink_to b n) (fun v => low_view b n v /\ mpval v = mpval b).
Proof.
  intros b n Hok Hn Hv. pose proof (mp_len_nonneg b) as L0. pose proof (mpval_bound b Hok) as VB.
  assert (Hm : mpval b < 256 ^ Z.min n (mp_len b)) by (destruct (Z.min_spec n (mp_len b)) as [[? ->]|[? ->]]; lia).
  unfold mp_shrink_to. apply wp_yields, dassert_m_wp.
  { intros _. apply wp_bind, wp_find_last_set_byte; auto. apply wp_ret. apply Z.leb_le. apply nbytes_le_iff; lia. }
  destruct (priv_view b n Hok Hn) as (v & R & LV). unfold wp. rewrite R. split; [exact LV|].
  pose proof (view_len b n v Hok Hn LV) as VL. destruct LV as (_ & _ & _ & ->). apply Z.mod_small. split; [lia|].
  eapply Z.lt_le_trans; [exact Hm|]. apply Z.pow_le_mono_r; lia.
Qed.
Lemma shrink_release : forall b n, mp_ok b -> 0 <= n -> debug c = false -> yields (mp_shrink_to b n) (low_view b n).
Proof.
  intros b n Hok Hn D. unfold mp_shrink_to, dassert_m. rewrite D. rewrite ret_bind. apply priv_view; auto.
Qed.
Lemma shrink_panics : forall b n, mp_ok b -> 0 <= n -> debug c = true -> 256 ^ n <= mpval b -> panics (mp_shrink_to b n).
Proof.
  intros b n Hok Hn D Hv. pose proof (mp_len_nonneg b) as L0. pose proof (mpval_bound b Hok) as VB. unfold mp_shrink_to. apply dassert_m_pan; [exact D|].
  apply wp_bind, wp_find_last_set_byte; auto. apply wp_ret. apply Z.leb_gt.
  assert (NM : Z.min n (mp_len b) = n). { apply Z.min_l. destruct (Z.le_gt_cases n (mp_len b)) as [|G]; auto. assert (256 ^ mp_len b <= 256 ^ n) by (apply Z.pow_le_mono_r; lia). lia. }
  rewrite NM. destruct (Z.le_gt_cases ((nbits (mpval b) + 7) / 8) n) as [G|]; [|lia]. apply nbytes_le_iff in G; lia.
Qed.
Lemma write_through : forall b n v w, mp_ok b -> 0 <= n -> low_view b n v -> becomes v w (mpval w) ->
  becomes b (mp_unshrink b w) (mpval b - mpval v + mpval w) /\ low_view (mp_unshrink b w) n w.
Proof.
  intros b n v w Hb Hn LV HW. pose proof (view_len b n v Hb Hn LV) as VL. destruct LV as (OV & KV & LV & VV), HW as (OW & [KW LW] & _).
  destruct (unshrink_spec b w Hb OW) as (O & S & V); [congruence|lia|]. destruct S as [SK SL].
  assert (P : 0 < 256 ^ mp_len v) by (apply Z.pow_pos_nonneg; [lia|apply mp_len_nonneg]).
  assert (BW : 0 <= mpval w < 256 ^ mp_len v) by (rewrite <- LW; apply mpval_bound; auto).
  split; [split; [exact O|split; [split; auto|]]|].
  - rewrite V, LW, VV, Z.mod_eq by lia. ring.
  - unfold low_view. rewrite SK, SL, KW, LW. split; [auto|]. split; [auto|]. split; [exact LV|].
    rewrite V, LW. rewrite (Z.mul_comm (256 ^ mp_len v)), Z.mod_add by lia. symmetry. apply Z.mod_small. auto.
Qed.

Lemma take_parts : forall b n, mp_ok b -> 0 <= n <= mp_len b -> (kind_of b = KNE -> n mod LB = 0) -> yields (mp_take b n) (fun '(hi, lo) => parts b n hi lo).
Proof.
  intros b n Hb Hn HA. apply wp_yields, wp_mp_take; auto.
  { destruct b; [left; reflexivity|left; reflexivity|right; apply HA; reflexivity]. }
  intros hi lo H1 H2 H3 H4 H5 H6 H7 H8. repeat (split; [assumption|]). rewrite H7, H8.
  assert (P : 0 < 256 ^ n) by (apply Z.pow_pos_nonneg; lia). pose proof (Z.div_mod (mpval b) (256 ^ n) ltac:(lia)). lia.
Qed.
Lemma take_panics : forall b n, mp_ok b -> 0 <= n -> n + LB <= 2 ^ UW -> mp_len b < n \/ debug c = true /\ kind_of b = KNE /\ n mod LB <> 0 -> panics (mp_take b n).
Proof.
  intros b n Hb Hn HU H. pose proof (mp_len_nonneg b) as L0. pose proof LB_pos as HLB. destruct b as [l|l|l]; cbn [mp_take mp_len kind_of] in *.
  - destruct H as [H|(_ & H & _)]; [|discriminate H]. destruct (debug c) eqn:D; [apply pan_l, usub_pan; auto|].
    rewrite usub_wrap, ret_bind by (auto; lia). apply pan_l, slice_pan. lia.
  - destruct H as [H|(_ & H & _)]; [|discriminate H]. apply pan_l, slice_pan. lia.
  - destruct H as [H|(D & _ & H)].
    + apply pan_any. intros [] _. rewrite ne_elements by lia. pose proof (ct_mp_nlimbs_spec n Hn) as NS. apply pan_l, slice_pan. nia.
    + apply dassert_pan; auto. apply Z.eqb_neq. exact H.
Qed.
(** Native limb buffers, release builds: the length of the lower part is rounded up. *)
Lemma take_rounds : forall l n, mp_ok (NE l) -> 0 <= n <= mp_len (NE l) -> debug c = false ->
  yields (mp_take (NE l) n) (fun '(hi, lo) => parts (NE l) (mp_len lo) hi lo /\ mp_len lo mod LB = 0 /\ n <= mp_len lo < n + LB).
Proof.
  intros l n Hb Hn D. pose proof LB_pos as HLB. pose proof (ct_mp_nlimbs_spec n ltac:(lia)) as NS. set (m := ct_mp_nlimbs n * LB) in *.
  assert (ML : m <= mp_len (NE l)) by (cbn [mp_len] in *; assert (ct_mp_nlimbs n < zlen l + 1) by (unfold m in *; nia); unfold m; nia).
  assert (E : mp_take (NE l) n = mp_take (NE l) m).
  { cbn [mp_take]. rewrite !dassert_release by auto. rewrite !ne_elements by (unfold m; lia). replace (ct_mp_nlimbs m) with (ct_mp_nlimbs n); [reflexivity|].
    pose proof (ct_mp_nlimbs_spec m ltac:(unfold m; nia)) as NM. unfold m in *. nia. }
  rewrite E. apply wp_yields; apply yields_imp with (P := fun (x : mp * mp) => let (hi, lo) := x in parts (NE l) m hi lo); [apply take_parts; auto; [unfold m in *; nia|intros _; apply Z.mod_mul; lia]|].
  intros [hi lo] HP. pose proof HP as (_ & _ & _ & _ & L & _). rewrite L. split; [exact HP|]. split; [apply Z.mod_mul; lia|unfold m in *; nia].
Qed.

(** ** Lengths (C60) *)
Lemma sizes : forall b, mp_ok b -> (nlimbs b - 1) * LB < mp_len b <= nlimbs b * LB /\ (mp_is_empty b = true <-> mp_len b = 0) /\ 0 <= mpval b < 256 ^ mp_len b.
Proof.
  intros b Hb. pose proof LB_pos as LP. split; [pose proof (ct_mp_nlimbs_spec (mp_len b) (mp_len_nonneg b)) as NS; unfold nlimbs; lia|].
  split; [|apply mpval_bound; auto]. destruct b as [l|l|l]; cbn [mp_is_empty mp_len]; rewrite Z.eqb_eq; nia.
Qed.
Lemma compatible_iff : forall b n, mp_ok b -> 0 <= n ->
  yields (len_is_compatible_with b n) (fun r => r = true <-> mp_len b <= n \/ kind_of b = KNE /\ mp_len b < n + LB /\ mpval b < 256 ^ n).
Proof.
  intros b n Hb Hn. apply wp_yields, wp_len_compat; auto. intros r H1 H2 H3. split.
  - intros E. destruct (H1 E) as (X & Y & Z0). destruct b; [left; apply Z0; reflexivity|left; apply Z0; reflexivity|right; auto].
  - intros [L|(K & L & V)]; [auto|]. apply H3; auto. destruct b; try discriminate K. reflexivity.
Qed.
Lemma backing_least : forall b n, 0 <= n -> let k := n_backing_elements_for_len b n in let s := match kind_of b with KNE => LB | _ => 1 end in (k - 1) * s < n <= k * s.
Proof.
  intros b n Hn k s. pose proof LB_pos as LP. destruct b; subst k s; cbn [n_backing_elements_for_len kind_of]; try lia.
  rewrite ne_elements by lia. pose proof (ct_mp_nlimbs_spec n Hn). lia.
Qed.
Lemma top_mask : forall b, mp_ok b -> 0 < mp_len b -> returns (partial_high_mask b) (256 ^ (mp_len b - (nlimbs b - 1) * LB) - 1).
Proof.
  intros b Hb HL. pose proof LB_pos as LP. pose proof (nlimbs_spec b) as NS. assert (N0 : 0 < nlimbs b) by nia.
  destruct (wp_yields _ _ _ (wp_partial_high_mask b (fun m => m = lim b (nlimbs b - 1) - 1) N0 eq_refl)) as (m & R & ->). unfold lim in R. rewrite Z.min_r in R by lia. exact R.
Qed.
End Facts.
