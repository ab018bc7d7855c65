(** Rules for loops rewriting a buffer limb by limb, lowest limb first. *)
From Coq Require Import ZArith List Bool Lia.
Require Import Verif.Spec Verif.Base Verif.Monad Verif.Wp Verif.ModelLimb Verif.LimbFacts Verif.LimbFacts2
  Verif.ModelBuf Verif.SpecBuf Verif.BufFacts Verif.BufFacts2 Verif.BufFacts3.
Import ListNotations.
Open Scope Z_scope.

Section Facts.
Context {c : cfg}.

(** The low [i] limbs of [b] hold [L], the others still those of [V0]; [a] gives the shape. *)
Definition upinv (a : mp) (V0 i L : Z) (b : mp) : Prop :=
  mp_ok b /\ same_shape a b /\ 0 <= L < B ^ i /\ mpval b = L + B ^ i * (V0 / B ^ i).

Lemma upinv_init : forall a, mp_ok a -> upinv a (mpval a) 0 0 a.
Proof.
  intros. split; [auto|split; [apply shape_refl|]]. rewrite vdiv_0, Z.pow_0_r. lia.
Qed.
Lemma upinv_ok : forall a V0 i L b, upinv a V0 i L b -> mp_ok b.
Proof. intros a V0 i L b H. apply H. Qed.
Lemma upinv_shape : forall a V0 i L b, upinv a V0 i L b -> same_shape a b.
Proof. intros a V0 i L b H. apply H. Qed.
Lemma upinv_len : forall a V0 i L b, upinv a V0 i L b -> mp_len b = mp_len a.
Proof. intros a V0 i L b H. apply shape_len, H. Qed.
Lemma upinv_nlimbs : forall a V0 i L b, upinv a V0 i L b -> nlimbs b = nlimbs a.
Proof. intros a V0 i L b H. apply shape_nlimbs, H. Qed.
Lemma upinv_unal : forall a V0 i L b, upinv a V0 i L b -> supports_unaligned b = supports_unaligned a.
Proof.
  intros a V0 i L b (_ & (K & _) & _). destruct a, b; cbn [kind_of supports_unaligned] in *; congruence.
Qed.
Lemma upinv_L : forall a V0 i L b, upinv a V0 i L b -> 0 <= L < B ^ i.
Proof. intros a V0 i L b H. apply H. Qed.
Lemma upinv_V : forall a V0 i L b, upinv a V0 i L b -> mpval b = L + B ^ i * (V0 / B ^ i).
Proof. intros a V0 i L b H. apply H. Qed.
Lemma upinv_limb : forall a V0 i L b j, upinv a V0 i L b -> 0 <= i <= j -> limb b j = vlimb V0 j.
Proof. intros a V0 i L b j (_ & _ & HL & HV) Hj. eapply up_limb'; eauto. Qed.
Lemma upinv_low : forall a V0 i L b j, upinv a V0 i L b -> 0 <= j < i -> limb b j = vlimb L j.
Proof.
  intros a V0 i L b j (_ & _ & HL & HV) Hj. rewrite limb_vlimb, HV.
  rewrite <- (limb_of_mod (L + _) j i) by lia. rewrite lohi_mod; auto.
Qed.

Lemma wp_up_load : forall a V0 i L b j (Q : Z -> Prop), upinv a V0 i L b -> 0 <= i <= j -> j < nlimbs a ->
  Q (vlimb V0 j) -> wp (load_l b j) Q.
Proof.
  intros a V0 i L b j Q H Hi Hj HQ. apply wp_load; [apply H|rewrite (upinv_nlimbs _ _ _ _ _ H); lia|].
  rewrite (upinv_limb _ _ _ _ _ _ H); auto.
Qed.
Lemma wp_up_load_full : forall a V0 i L b j (Q : Z -> Prop), upinv a V0 i L b -> 0 <= i <= j -> (j + 1) * LB <= mp_len a ->
  Q (vlimb V0 j) -> wp (load_l_full b j) Q.
Proof.
  intros a V0 i L b j Q H Hi Hj HQ. apply wp_load_full; [apply H|lia|rewrite (upinv_len _ _ _ _ _ H); lia|].
  rewrite (upinv_limb _ _ _ _ _ _ H); auto.
Qed.
Lemma upinv_step : forall a V0 i L b b' x, upinv a V0 i L b -> 0 <= i -> isl x -> store_post b i x b' ->
  upinv a V0 (i + 1) (L + x * B ^ i) b'.
Proof.
  intros a V0 i L b b' x (O & S & HL & HV) Hi Hx HP. destruct (up_step b b' V0 L i x) as [E R]; auto.
  split; [apply HP|]. split; [eapply shape_trans; [eauto|apply HP]|]. auto.
Qed.
Lemma wp_up_store : forall a V0 i L b x (Q : mp -> Prop), upinv a V0 i L b -> 0 <= i < nlimbs a -> 0 <= x < lim a i ->
  (forall b', upinv a V0 (i + 1) (L + x * B ^ i) b' -> Q b') -> wp (store_l b i x) Q.
Proof.
  intros a V0 i L b x Q H Hi Hx HQ. pose proof (lim_pos a i Hi).
  apply wp_store; [apply H|rewrite (upinv_nlimbs _ _ _ _ _ H); lia|rewrite (lim_shape a b) by apply H; auto|].
  intros b' HP. apply HQ. eapply upinv_step; eauto; [lia|unfold isl; lia].
Qed.
Lemma wp_up_store_full : forall a V0 i L b x (Q : mp -> Prop), upinv a V0 i L b -> 0 <= i -> (i + 1) * LB <= mp_len a -> isl x ->
  (forall b', upinv a V0 (i + 1) (L + x * B ^ i) b' -> Q b') -> wp (store_l_full b i x) Q.
Proof.
  intros a V0 i L b x Q H Hi Hf Hx HQ.
  apply wp_store_full; [apply H|auto|rewrite (upinv_len _ _ _ _ _ H); lia|auto|].
  intros b' HP. apply HQ. eapply upinv_step; eauto.
Qed.
Lemma upinv_done : forall a i L b, mp_ok a -> upinv a (mpval a) i L b -> nlimbs a <= i -> becomes a b L.
Proof.
  intros a i L b Ha (O & S & HL & HV) Hi. split; [auto|split; [auto|]]. rewrite HV, vdiv_full by auto. lia.
Qed.
(** Nothing stored at limb [i]. *)
Lemma upinv_keep : forall a V0 i L b, upinv a V0 i L b -> 0 <= i -> upinv a V0 (i + 1) (L + vlimb V0 i * B ^ i) b.
Proof.
  intros a V0 i L b (O & S & HL & HV) Hi. pose proof (Bpow_pos i Hi). pose proof (vlimb_isl V0 i) as Hv. unfold isl in Hv.
  split; [auto|split; [auto|]]. split.
  - rewrite Bpow_S by auto. pf (mul_nn (vlimb V0 i) (B ^ i)). pf (mul_le_l (B ^ i) (vlimb V0 i) (B - 1)). lia.
  - rewrite HV, (vdiv_S V0 i) by auto. set (h := V0 / B ^ (i + 1)). rewrite Bpow_S by auto. ring.
Qed.

Lemma full_inner : forall a i, 0 <= i < nlimbs a - 1 -> (i + 1) * LB <= mp_len a.
Proof. intros. apply nlimbs_full. lia. Qed.
Lemma ne_full : forall a i, 0 <= i < nlimbs a -> supports_unaligned a = false -> (i + 1) * LB <= mp_len a.
Proof.
  intros a i Hi H. destruct a as [l|l|l]; try discriminate. pose proof LB_pos.
  unfold nlimbs in Hi. cbn [mp_len] in *. rewrite (ct_mp_nlimbs_unique _ (zlen l)) in Hi; [|apply zlen_nonneg|lia].
  rewrite !(Z.mul_comm _ LB). apply mul_le_l; lia.
Qed.
Lemma ne_lim : forall a i, 0 <= i < nlimbs a -> supports_unaligned a = false -> lim a i = B.
Proof. intros. apply lim_full, ne_full; auto. Qed.
Lemma ne_total : forall a, mp_ok a -> supports_unaligned a = false -> B ^ nlimbs a = 256 ^ mp_len a.
Proof.
  intros a Ha H. pose proof (nlimbs_nonneg a). destruct (Z.eq_dec (nlimbs a) 0) as [E|E].
  - pose proof (nlimbs_spec a). pose proof (mp_len_nonneg a). rewrite E in *. replace (mp_len a) with 0 by lia. auto.
  - rewrite <- lim_total by lia. rewrite ne_lim by (auto; lia).
    replace (nlimbs a) with ((nlimbs a - 1) + 1) at 1 by lia. rewrite Bpow_S by lia. ring.
Qed.
Lemma aligned_total : forall a, 0 < nlimbs a -> lim a (nlimbs a - 1) = B -> B ^ nlimbs a = 256 ^ mp_len a.
Proof.
  intros a H E. rewrite <- lim_total by lia. rewrite E.
  replace (nlimbs a) with ((nlimbs a - 1) + 1) at 1 by lia. rewrite Bpow_S by lia. ring.
Qed.

Lemma lim_last_pow2 : forall b, 0 < nlimbs b -> exists s, 0 < s <= W /\ lim b (nlimbs b - 1) = 2 ^ s.
Proof.
  intros b H. destruct (lim_last_shift b H) as [[E1 E2]|[E1 E2]].
  - exists W. pose proof W_pos. split; [lia|]. exact E2.
  - exists (partial_high_shift b). split; [lia|auto].
Qed.
Lemma land_lim : forall b x, 0 < nlimbs b -> Z.land x (lim b (nlimbs b - 1) - 1) = x mod lim b (nlimbs b - 1).
Proof. intros b x H. destruct (lim_last_pow2 b H) as (s & Hs & ->). apply land_mask. lia. Qed.
Lemma land_lnot_lim' : forall b x, 0 < nlimbs b -> isl x ->
  Z.land x (lnot (lim b (nlimbs b - 1) - 1)) = x - x mod lim b (nlimbs b - 1).
Proof. intros b x H Hx. destruct (lim_last_pow2 b H) as (s & Hs & ->). apply land_lnot_mask; auto. lia. Qed.
(** A partial high limb leaves at least a byte free. *)
Lemma lim_half : forall b, 0 < nlimbs b -> lim b (nlimbs b - 1) = B \/ (partial_high_shift b <> 0 /\ 256 * lim b (nlimbs b - 1) <= B).
Proof.
  intros b H. destruct (lim_last_shift b H) as [[E1 E2]|[E1 E2]]; [auto|]. right. split; [lia|]. rewrite E2.
  rewrite partial_high_shift_eq in *. unfold B, W in *. change 256 with (2 ^ 8). pose proof LB_pos.
  rewrite <- Z.pow_add_r by lia. apply Z.pow_le_mono_r; lia.
Qed.

Lemma wp_up_mask : forall a V0 i L b (Q : Z -> Prop), upinv a V0 i L b -> 0 < nlimbs a ->
  Q (lim a (nlimbs a - 1) - 1) -> wp (partial_high_mask b) Q.
Proof.
  intros a V0 i L b Q H Hn HQ. pose proof (upinv_nlimbs _ _ _ _ _ H) as E.
  apply wp_partial_high_mask; rewrite E; auto. rewrite (lim_shape a b) by apply H. auto.
Qed.
Lemma up_shift : forall a V0 i L b, upinv a V0 i L b -> partial_high_shift b = partial_high_shift a.
Proof. intros a V0 i L b H. rewrite !partial_high_shift_eq, (upinv_len _ _ _ _ _ H). auto. Qed.

(** Masked store of the last limb. *)
Lemma wp_up_store_last : forall a V0 L b x (Q : mp -> Prop), upinv a V0 (nlimbs a - 1) L b -> 0 < nlimbs a -> isl x ->
  (forall b', upinv a V0 (nlimbs a) (L + (x mod lim a (nlimbs a - 1)) * B ^ (nlimbs a - 1)) b' -> Q b') ->
  wp (store_l b (nlimbs a - 1) (Z.land x (lim a (nlimbs a - 1) - 1))) Q.
Proof.
  intros a V0 L b x Q H Hn Hx HQ. rewrite land_lim by auto. pf (lim_pos a (nlimbs a - 1)).
  eapply wp_up_store; eauto; [lia|apply Z.mod_pos_bound; lia|].
  replace (nlimbs a - 1 + 1) with (nlimbs a) by lia. auto.
Qed.

Lemma vlimb_0 : forall i, vlimb 0 i = 0.
Proof. intros. unfold vlimb. rewrite Zdiv_0_l. apply Z.mod_0_l. pose proof B_pos. lia. Qed.
Lemma sel_limb : forall z v i, lc_select (chc z) 0 (vlimb v i) = vlimb (if z then v else 0) i.
Proof.
  intros. rewrite lc_select_chc; [|apply isl_0|apply vlimb_isl]. destruct z; [auto|symmetry; apply vlimb_0].
Qed.
Lemma vlimb_big : forall v i, 0 <= v < B ^ i -> vlimb v i = 0.
Proof. intros. unfold vlimb. rewrite Z.div_small by auto. apply Z.mod_0_l. pose proof B_pos. lia. Qed.
Lemma vlimb_out : forall v n i, 0 <= v < B ^ n -> n <= i -> vlimb v i = 0.
Proof.
  intros. apply vlimb_big. assert (B ^ n <= B ^ i) by (apply Z.pow_le_mono_r; [apply B_pos|lia]). lia.
Qed.
Lemma vmod_big : forall v n i, 0 <= v < B ^ n -> n <= i -> v mod B ^ i = v.
Proof.
  intros. apply Z.mod_small. assert (B ^ n <= B ^ i) by (apply Z.pow_le_mono_r; [apply B_pos|lia]). lia.
Qed.

Lemma dn_limb_last : forall b, mp_ok b -> 0 < nlimbs b -> mpval b = mpval b mod B ^ (nlimbs b - 1) + vlimb (mpval b) (nlimbs b - 1) * B ^ (nlimbs b - 1).
Proof.
  intros b Hb Hn. rewrite <- vmod_S by lia. replace (nlimbs b - 1 + 1) with (nlimbs b) by lia.
  rewrite vmod_full; auto. lia.
Qed.

End Facts.
