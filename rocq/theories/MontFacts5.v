(** Facts about montgomery_impl.rs (ModelMont.v): ct_montgomery_redc_mp and ct_montgomery_mul_mod_mp_mp. *)
From Coq Require Import ZArith List Bool Lia.
Require Import Verif.Spec Verif.Base Verif.Monad Verif.Wp Verif.ModelLimb Verif.LimbFacts Verif.LimbFacts2
  Verif.ModelBuf Verif.SpecBuf Verif.BufFacts Verif.BufFacts2 Verif.BufFacts3 Verif.UpFacts Verif.ModelCmp Verif.CmpFacts
  Verif.ModelAdd Verif.AddFacts Verif.AddFacts2 Verif.DivFacts4 Verif.SpecMont Verif.ModelMont Verif.MontFacts Verif.MontFacts2 Verif.MontFacts3 Verif.MontFacts4.
Import ListNotations.
Open Scope Z_scope.

Section Facts.
Context {c : cfg}.

(** ** The checks *)
Lemma unal_KNE : forall b, supports_unaligned b = false <-> kind_of b = KNE.
Proof. destruct b; cbn; split; congruence. Qed.

Lemma wp_compat : forall b len (Q : bool -> Prop), mp_ok b -> 0 <= len -> len_compat b len -> Q true -> wp (len_is_compatible_with b len) Q.
Proof.
  intros b len Q Hb Hl H HQ. apply wp_len_compat; auto. intros r _ H1 H2. destruct H as [H|(K & H & HV)].
  - rewrite H1; auto.
  - rewrite H2; auto. apply unal_KNE. auto.
Qed.
Lemma wp_compat_not : forall b len (Q : bool -> Prop), mp_ok b -> 0 <= len -> ~ len_compat b len -> Q false -> wp (len_is_compatible_with b len) Q.
Proof.
  intros b len Q Hb Hl H HQ. apply wp_len_compat; auto. intros r H1 _ _. destruct r; auto. exfalso. apply H.
  destruct (H1 eq_refl) as (HV & HL & HU). destruct (supports_unaligned b) eqn:U; [left; auto|right]. apply unal_KNE in U. auto.
Qed.
Lemma compat_nlimbs : forall b len, mp_ok b -> 0 <= len -> len_compat b len -> nlimbs b <= ct_mp_nlimbs len /\ mpval b < 256 ^ len.
Proof.
  intros b len Hb Hl H. pose proof (mp_len_nonneg b) as L0. pose proof LB_pos. pf (ct_mp_nlimbs_spec len) as NS. pose proof (nlimbs_spec b) as NB.
  destruct H as [H|(K & H & HV)].
  - split; [apply nlimbs_len_mono; lia|]. pose proof (mpval_bound b Hb). assert (256 ^ mp_len b <= 256 ^ len) by (apply Z.pow_le_mono_r; lia). lia.
  - split; [|auto]. destruct b; try discriminate. cbn [mp_len] in *. rewrite nlimbs_NE in *. 
    apply Z.lt_succ_r. unfold Z.succ. apply (mul_lt_cancel LB); lia.
Qed.

Lemma odd_land : forall v, 0 <= v -> Z.land v 1 = b2z (Z.odd v).
Proof.
  intros v Hv. change 1 with (2 ^ 1 - 1) at 1. rewrite land_mask by lia. change (2 ^ 1) with 2. rewrite Zmod_odd. destruct (Z.odd v); auto.
Qed.
Lemma B_even : exists h, B = 2 * h.
Proof. exists (2 ^ (W - 1)). rewrite B_eq. pose proof W_pos. replace W with (1 + (W - 1)) at 1 by lia. rewrite Z.pow_add_r by lia. auto. Qed.
Lemma vlimb0 : forall v, vlimb v 0 = v mod B.
Proof. intros. unfold vlimb. change (B ^ 0) with 1. rewrite Z.div_1_r. auto. Qed.
Lemma vlimb0_odd : forall v, Z.odd (vlimb v 0) = Z.odd v.
Proof.
  intros. rewrite vlimb0. destruct B_even as [h H]. pose proof B_pos. assert (B0 : B <> 0) by lia. pose proof (Z.div_mod v B B0) as D. rewrite D at 2.
  rewrite H at 2. rewrite <- Z.mul_assoc, Z.add_comm, Z.odd_add_mul_2. auto.
Qed.

(** The checks all the functions begin with. *)
Lemma wp_even : forall T n (K : Z -> M T) (Q : T -> Prop), mp_ok n -> 0 < nlimbs n ->
  (wp (K (chc (negb (Z.odd (mpval n))))) Q) -> wp (let! even := ct_eq_l_l (Z.land (vlimb (mpval n) 0) 1) 0 in K even) Q.
Proof.
  intros T n K Q Hn Hnn HQ. apply wp_bind. rewrite odd_land by apply vlimb_isl. rewrite vlimb0_odd.
  apply wp_eq_l; [destruct (Z.odd (mpval n)); [apply isl_1|apply isl_0]|apply isl_0|]. destruct (Z.odd (mpval n)); exact HQ.
Qed.

Lemma odd_nlimbs : forall n, mp_ok n -> Z.odd (mpval n) = true -> 0 < nlimbs n /\ 0 < mpval n.
Proof.
  intros n Hn H. pose proof (mpval_bound_B n Hn). pose proof (nlimbs_nonneg n).
  assert (mpval n <> 0) by (intros E; rewrite E in H; discriminate). split; [|lia].
  destruct (Z.eq_dec (nlimbs n) 0) as [E|E]; [rewrite E in *; change (B ^ 0) with 1 in *; lia|lia].
Qed.

Lemma neg_inv_lwmul : forall n g, neg_inv n g -> lwmul (vlimb (mpval n) 0) g = B - 1 /\ isl g.
Proof.
  intros n g [Hg H]. split; [|auto]. unfold lwmul. rewrite vlimb0. pose proof B_gt. rewrite Z.mul_mod_idemp_l by lia.
  assert (M : (mpval n * g) mod B = B - 1).
  { apply Z.mod_divide in H; [|lia]. destruct H as [q H]. symmetry. apply Z.mod_unique with (q - 1); lia. }
  exact M.
Qed.

(** ** Montgomery reduction *)
Lemma acc_full : forall t p, mp_ok t -> nlimbs t = p + 1 -> 0 <= p -> acc t p (vlimb (mpval t) p) 0 = mpval t.
Proof.
  intros t p Ht Nt Hp. unfold acc. pf (dn_limb_last t Ht) as E. replace (nlimbs t - 1) with p in E by lia. lia.
Qed.

Lemma mg_reduced_mod : forall n A x M, mp_ok n -> 0 < mpval n -> mg_radix n * A = x + M * mpval n -> mg_reduced n x (A mod mpval n).
Proof.
  intros n A x M Hn HN E. split; [apply Z.mod_pos_bound; lia|]. rewrite Z.mul_mod_idemp_l by lia.
  rewrite Z.mul_comm, E. apply Z.mod_add. lia.
Qed.

Lemma wp_redc : forall t n g (Q : result unit mg_err * mp -> Prop), mp_ok t -> mp_ok n -> Z.odd (mpval n) = true -> 2 <= nlimbs n ->
  neg_inv n g -> len_compat n (mp_len t) -> len_compat t (2 * mp_len n) -> mpval t < mpval n * mg_radix n ->
  (forall t' v, becomes t t' v -> mg_reduced n (mpval t) v -> Q (Ok tt, t')) ->
  wp (ct_montgomery_redc_mp t n g) Q.
Proof.
  intros t n g Q Ht Hn HO Hnn HG C1 C2 HT HQ. destruct (odd_nlimbs n Hn HO) as [N0 NP]. destruct (neg_inv_lwmul n g HG) as [HL Hg].
  pose proof (mp_len_nonneg t) as Lt. pose proof (mp_len_nonneg n) as Ln.
  destruct (compat_nlimbs n (mp_len t) Hn Lt C1) as [NN NV]. fold (nlimbs t) in NN.
  unfold ct_montgomery_redc_mp. apply wp_mif; intros E. { rewrite empty_nlimbs in E. apply Z.eqb_eq in E. lia. } clear E.
  apply wp_bind, wp_load; [auto|lia|]. rewrite limb_vlimb. apply wp_even; [auto|lia|]. rewrite HO, lc_unwrap_chc.
  apply wp_mif; intros E; [discriminate|]. clear E.
  apply wp_bind, wp_compat; [auto|lia|auto|]. apply wp_mif; intros E; [discriminate|]. clear E.
  apply wp_bind, wp_compat; [auto|lia|auto|]. apply wp_mif; intros E; [discriminate|]. clear E.
  apply wp_bind, wp_dassert; [rewrite HL, lnot_eq by apply isl_0; apply Z.eqb_eq; lia|].
  set (p := nlimbs t - 1). assert (Np : nlimbs t = p + 1) by lia. rewrite Np. 
  apply wp_bind, wp_usub; [lia|]. replace (p + 1 - 1) with p by lia. apply wp_bind, wp_load; [auto|lia|]. rewrite limb_vlimb.
  unfold ct_montgomery_radix_shift_mp_nlimbs. change (ct_mp_nlimbs (mp_len n)) with (nlimbs n).
  apply wp_bind. apply wp_for with (I := fun i '(t', cy, sh) => mp_ok t' /\ same_shape t t' /\ (cy = 0 \/ cy = 1) /\ isl sh /\
     exists M, 0 <= M < B ^ i /\ B ^ i * acc t' p sh cy = mpval t + M * mpval n); [lia| | |].
  { split; [auto|]. split; [apply shape_refl|]. split; [auto|]. split; [apply vlimb_isl|]. exists 0. change (B ^ 0) with 1. split; [lia|].
    rewrite acc_full by (auto; lia). lia. }
  { intros i ((t1, cy1), sh1) Hi (O1 & S1 & Hc1 & Hs1 & M & HM & HE).
    apply wp_redc_step; auto; [rewrite (shape_nlimbs _ _ S1); auto|rewrite (shape_nlimbs _ _ S1); lia|].
    intros t2 cy2 sh2 m O2 S2 Hc2 Hs2 Hm HE2. split; [auto|]. split; [eapply shape_trans; eauto|]. split; [auto|]. split; [auto|].
    exists (M + B ^ i * m). pf (Bpow_pos i) as PI. split.
    - rewrite Bpow_S by lia. pf (mul_nn (B ^ i) m). pf (mul_le_l (B ^ i) m (B - 1)). lia.
    - rewrite Bpow_S by lia. replace (B * B ^ i * acc t2 p sh2 cy2) with (B ^ i * (B * acc t2 p sh2 cy2)) by ring.
      rewrite HE2. replace (B ^ i * (acc t1 p sh1 cy1 + m * mpval n)) with (B ^ i * acc t1 p sh1 cy1 + B ^ i * m * mpval n) by ring. rewrite HE. ring. }
  intros ((t1, cy1), sh1) (O1 & S1 & Hc1 & Hs1 & M & HM & HE). fold (mg_radix n) in HM, HE.
  assert (RP : 0 < mg_radix n) by (apply Bpow_pos; lia).
  assert (HA : acc t1 p sh1 cy1 < 2 * mpval n).
  { apply (mul_lt_cancel (mg_radix n)); [auto|]. rewrite HE. pf (mul_le_l (mpval n) M (mg_radix n)). lia. }
  apply wp_bind. apply wp_mg_finish with (p := p) (A := acc t1 p sh1 cy1); auto; try (rewrite ?(shape_nlimbs _ _ S1), ?(shape_len _ _ S1)); auto; try lia.
  intros t2 (O2 & S2 & E2). apply wp_ret. apply (HQ _ (acc t1 p sh1 cy1 mod mpval n)).
  - split; [auto|]. split; [eapply shape_trans; eauto|auto].
  - apply mg_reduced_mod with M; auto.
Qed.

(** ** Montgomery multiplication *)
Lemma ct_align_spec : forall n, 0 <= n -> ct_mp_limbs_align_len n = ct_mp_nlimbs n * LB.
Proof. reflexivity. Qed.

Lemma shrunk_n : forall r n, mp_ok n -> len_compat n (mp_len r) ->
  ct_mp_nlimbs (shrunk_len r (mp_len n)) = nlimbs n /\ Z.min (mp_len r) (mp_len n) <= shrunk_len r (mp_len n) <= mp_len r /\
  (same_bytes r n -> shrunk_len r (mp_len n) = mp_len n).
Proof.
  intros r n Hn HC. pose proof (mp_len_nonneg r) as Lr. pose proof (mp_len_nonneg n) as Ln. pose proof LB_pos as LP.
  destruct (compat_nlimbs n (mp_len r) Hn Lr HC) as [NN _].
  set (m := Z.min (mp_len n) (mp_len r)). assert (Hm : 0 <= m) by lia.
  assert (NM : ct_mp_nlimbs m = nlimbs n).
  { unfold m, nlimbs in *. destruct (Z.min_spec (mp_len n) (mp_len r)) as [[L ->]|[L ->]]; auto.
    pf (nlimbs_len_mono (mp_len r) (mp_len n)). lia. }
  unfold shrunk_len. fold m. destruct (supports_unaligned r) eqn:U.
  - split; [auto|]. split; [lia|]. intros [H _]. lia.
  - rewrite ct_align_spec, NM by auto. assert (0 <= nlimbs n) by apply nlimbs_nonneg.
    pf (ct_mp_nlimbs_spec m) as MS. rewrite NM in MS. split; [|split].
    + apply ct_mp_nlimbs_unique; lia.
    + split; [lia|]. destruct r as [l|l|l]; try discriminate. cbn [mp_len] in *. rewrite !(Z.mul_comm _ LB). apply mul_le_l; [lia|].
      pose proof (zlen_nonneg _ l). rewrite (ct_mp_nlimbs_unique (zlen l * LB) (zlen l)) in NN by lia. auto.
    + intros [H1 H2]. apply unal_KNE in U. specialize (H2 U). apply Z.mod_divide in H2; [|lia]. destruct H2 as [q H2].
      unfold nlimbs. rewrite (ct_mp_nlimbs_unique _ q); lia.
Qed.

Lemma acc_step : forall i a0 a1 O N D m M x, 0 <= i -> B ^ i * a0 = x * O + M * N -> B * a1 = a0 + D * O + m * N ->
  B ^ (i + 1) * a1 = (x + D * B ^ i) * O + (M + B ^ i * m) * N.
Proof.
  intros i a0 a1 O N D m M x Hi H0 H1. rewrite Bpow_S by auto. replace (B * B ^ i * a1) with (B ^ i * (B * a1)) by ring.
  rewrite H1. replace (B ^ i * (a0 + D * O + m * N)) with (B ^ i * a0 + B ^ i * (D * O + m * N)) by ring. rewrite H0. ring.
Qed.

Lemma acc_bound : forall i a x O N M, 0 <= i -> B ^ i * a = x * O + M * N -> 0 <= x < B ^ i -> 0 <= M < B ^ i -> 0 <= O -> 0 < N -> a < O + N.
Proof.
  intros i a x O N M Hi E Hx HM HO HN. pf (Bpow_pos i). apply (mul_lt_cancel (B ^ i)); [auto|]. rewrite E.
  pf (mul_le_l O x (B ^ i)). pf (mul_lt_l N M (B ^ i)). lia.
Qed.
Lemma M_bound : forall i M m, 0 <= i -> 0 <= M < B ^ i -> 0 <= m < B -> 0 <= M + B ^ i * m < B ^ (i + 1).
Proof.
  intros i M m Hi HM Hm. pf (Bpow_pos i). rewrite Bpow_S by lia. pf (mul_nn (B ^ i) m). pf (mul_le_l (B ^ i) m (B - 1)). lia.
Qed.

(** The state of the outer loops after [i] rounds; [x] is the part of op0 multiplied in so far. *)
Definition oinv (r0 : mp) (p x O N i : Z) (s : mp * Z * Z) : Prop :=
  let '(t', cy, sh) := s in mp_ok t' /\ same_shape r0 t' /\ (cy = 0 \/ cy = 1) /\ isl sh /\
  exists M, 0 <= M < B ^ i /\ B ^ i * acc t' p sh cy = x * O + M * N.

Lemma wp_mg_mul : forall r op0 op1 n g (Q : Monad.result unit mg_err * mp -> Prop), mp_ok r -> mp_ok op0 -> mp_ok op1 -> mp_ok n ->
  Z.odd (mpval n) = true -> neg_inv n g -> len_compat n (mp_len r) -> len_compat op0 (mp_len n) -> len_compat op1 (mp_len n) ->
  mpval op0 < mpval n -> mpval op1 < mpval n -> 0 < mp_len op1 ->
  B * mpval op1 + mpval n <= B * mg_radix n ->
  (same_bytes r n \/ mpval op0 * mpval op1 + mg_radix n * mpval n <= mg_radix n * 256 ^ Z.min (mp_len r) (mp_len n)) ->
  (forall r' v, becomes r r' v -> mg_reduced n (mpval op0 * mpval op1) v -> Q (Ok tt, r')) ->
  wp (ct_montgomery_mul_mod_mp_mp r op0 op1 n g) Q.
Proof.
  intros r op0 op1 n g Q Hr H0 H1 Hn HO HG C C0 C1 V0 V1 L1 HB HS HQ.
  destruct (odd_nlimbs n Hn HO) as [N0 NP]. destruct (neg_inv_lwmul n g HG) as [HL Hg].
  pose proof (mp_len_nonneg r) as Lr. pose proof (mp_len_nonneg n) as Ln.
  destruct (compat_nlimbs n (mp_len r) Hn Lr C) as [NN NV]. fold (nlimbs r) in NN.
  destruct (compat_nlimbs op0 (mp_len n) H0 Ln C0) as [NN0 _]. fold (nlimbs n) in NN0.
  destruct (compat_nlimbs op1 (mp_len n) H1 Ln C1) as [NN1 _]. fold (nlimbs n) in NN1.
  assert (NP1 : 1 <= nlimbs op1). { pose proof (nlimbs_spec op1). pose proof (nlimbs_nonneg op1). destruct (Z.eq_dec (nlimbs op1) 0) as [E|E]; [rewrite E in *; lia|lia]. }
  pose proof (mpval_nonneg op0 H0) as P0. pose proof (mpval_nonneg op1 H1) as P1.
  unfold ct_montgomery_mul_mod_mp_mp. apply wp_mif; intros E. { rewrite empty_nlimbs in E. apply Z.eqb_eq in E. lia. } clear E.
  apply wp_bind, wp_load; [auto|lia|]. rewrite limb_vlimb. apply wp_even; [auto|lia|]. rewrite HO, lc_unwrap_chc.
  apply wp_mif; intros E; [discriminate|]. clear E.
  apply wp_bind, wp_compat; [auto|lia|auto|]. apply wp_mif; intros E; [discriminate|]. clear E.
  apply wp_bind, wp_dassert; [apply Z.leb_le; lia|].
  apply wp_bind, wp_compat; [auto|lia|auto|].
  apply wp_bind. apply wp_mif; intros E; [discriminate|]. clear E.
  apply wp_bind, wp_compat; [auto|lia|auto|]. apply wp_ret. apply wp_mif; intros E; [discriminate|]. clear E.
  apply wp_bind, wp_dassert; [apply Z.leb_le; lia|]. apply wp_bind, wp_dassert_lt; auto.
  apply wp_bind, wp_dassert; [apply Z.leb_le; lia|]. apply wp_bind, wp_dassert_lt; auto.
  apply wp_bind, wp_dassert; [rewrite HL, lnot_eq by apply isl_0; apply Z.eqb_eq; lia|].
  apply wp_bind, wp_clear_above; [auto|lia|]. intros rf (Of & Sf & Ef). change (256 ^ 0) with 1 in Ef. rewrite Z.mod_1_r in Ef.
  destruct (shrunk_n rf n) as (SN & SL & SE); [auto|unfold len_compat; rewrite (shape_len _ _ Sf); auto|].
  apply wp_bind, wp_shrink_to; [auto|lia|rewrite Ef; apply p256_pos; lia|]. intros r0 O0 K0 L0 E0. rewrite Ef in E0.
  rewrite (shape_len _ _ Sf) in SL. rewrite <- L0 in SN, SL, SE. fold (nlimbs r0) in SN.
  assert (NV0 : mpval n < 256 ^ mp_len r0).
  { pose proof (mpval_bound n Hn) as NB. assert (256 ^ Z.min (mp_len r) (mp_len n) <= 256 ^ mp_len r0) by (apply Z.pow_le_mono_r; lia).
    destruct (Z.min_spec (mp_len r) (mp_len n)) as [[? EM]|[? EM]]; rewrite EM in H; lia. }
  assert (SE' : same_bytes r n -> mp_len n = mp_len r0).
  { intros HB'. symmetry. apply SE. unfold same_bytes in *. rewrite (shape_len _ _ Sf). destruct Sf as [-> _]. auto. }
  clear SE. apply wp_bind, wp_dassert; [apply Z.eqb_eq; lia|].
  set (p := nlimbs n - 1). assert (Np : nlimbs n = p + 1) by lia. assert (Hp : 0 <= p) by lia.
  set (N := mpval n) in *. set (O := mpval op1) in *.
  pose proof B_gt as BG.
  assert (ER : mg_radix n = B ^ (p + 1)) by (unfold mg_radix; rewrite Np; auto).
  apply wp_bind. apply wp_for with (I := fun i => oinv r0 p (mpval op0 mod B ^ i) O N i); [apply nlimbs_nonneg| | |].
  { split; [auto|]. split; [apply shape_refl|]. split; [auto|]. split; [apply isl_0|]. exists 0. change (B ^ 0) with 1. split; [lia|].
    rewrite Z.mod_1_r. unfold acc. rewrite E0. rewrite Z.mod_0_l by (pf (Bpow_pos p); lia). lia. }
  { intros i ((t1, cy1), sh1) Hi (O1 & S1 & Hc1 & Hs1 & M & HM & HE). assert (I0 : 0 <= i) by lia. pf (Bpow_pos i) as PI.
    pf (Z.mod_pos_bound (mpval op0) (B ^ i)) as MB. pose proof (vlimb_isl (mpval op0) i) as Hv.
    pf (acc_bound i (acc t1 p sh1 cy1) (mpval op0 mod B ^ i) O N M I0 HE MB HM P1 NP) as AB.
    apply wp_mg_mul_step with (p := p); auto; [rewrite (shape_nlimbs _ _ S1); lia|lia| |].
    { fold O. replace (p + 2) with (p + 1 + 1) by lia. rewrite Bpow_S by lia. rewrite <- ER. unfold isl in Hv.
      pf (mul_le_l O (vlimb (mpval op0) i) (B - 1)) as OV. clear - OV AB HB. lia. }
    intros t2 cy2 sh2 m O2 S2 Hc2 Hs2 Hm HE2. split; [auto|]. split; [eapply shape_trans; eauto|]. split; [auto|]. split; [auto|].
    exists (M + B ^ i * m). split; [apply M_bound; auto|]. rewrite vmod_S by auto. apply (acc_step i _ _ _ _ _ _ _ _ I0 HE HE2). }
  intros ((t1, cy1), sh1) HI. unfold ct_montgomery_radix_shift_mp_nlimbs. change (ct_mp_nlimbs (mp_len n)) with (nlimbs n).
  rewrite (Z.mod_small (mpval op0) (B ^ nlimbs op0)) in HI by (apply mpval_bound_B; auto).
  apply wp_bind. apply wp_for with (I := oinv r0 p (mpval op0) O N); [lia|exact HI| |].
  { clear HI t1 cy1 sh1. intros i ((t1, cy1), sh1) Hi (O1 & S1 & Hc1 & Hs1 & M & HM & HE). pose proof (nlimbs_nonneg op0). assert (I0 : 0 <= i) by lia. pf (Bpow_pos i) as PI.
    apply wp_mg_redc_step with (p := p); auto; [rewrite (shape_nlimbs _ _ S1); lia|].
    intros t2 cy2 sh2 m O2 S2 Hc2 Hs2 Hm HE2. split; [auto|]. split; [eapply shape_trans; eauto|]. split; [auto|]. split; [auto|].
    exists (M + B ^ i * m). split; [apply M_bound; auto|].
    replace (mpval op0) with (mpval op0 + 0 * B ^ i) by lia. fold N in HE2. apply (acc_step i _ _ _ _ _ _ _ _ I0 HE). rewrite HE2. ring. }
  clear HI t1 cy1 sh1. intros ((t1, cy1), sh1) (O1 & S1 & Hc1 & Hs1 & M & HM & HE).
  fold (mg_radix n) in HM, HE. assert (RP : 0 < mg_radix n) by (apply Bpow_pos; lia).
  apply wp_bind, wp_dassert; [rewrite (shape_nlimbs _ _ S1); apply Z.eqb_eq; lia|].
  assert (X0 : mpval op0 < mg_radix n). { pose proof (mpval_bound_B n Hn) as NB. fold (mg_radix n) in NB. fold N in NB. lia. }
  assert (HA : acc t1 p sh1 cy1 < O + N) by (apply (acc_bound (nlimbs n) _ (mpval op0) O N M); auto; lia).
  rewrite Np.
  apply wp_bind. apply wp_mg_finish with (p := p) (A := acc t1 p sh1 cy1); auto; try (rewrite ?(shape_nlimbs _ _ S1), ?(shape_len _ _ S1)); auto; try lia.
  { destruct HS as [HS|HS]; [left; auto|right].
    assert (AL : acc t1 p sh1 cy1 < 256 ^ Z.min (mp_len r) (mp_len n)).
    { apply (mul_lt_cancel (mg_radix n)); auto. rewrite HE. pf (mul_lt_l N M (mg_radix n)). lia. }
    split; (eapply Z.lt_le_trans; [exact AL|]; apply Z.pow_le_mono_r; lia). }
  fold N. intros t2 (O2 & S2 & E2). apply wp_ret.
  pose proof (shape_trans _ _ _ S1 S2) as S3.
  destruct (unshrink_spec rf t2) as (O4 & S4 & E4); auto.
  { destruct S3 as [-> _]. auto. }
  { rewrite (shape_len _ _ S3), (shape_len _ _ Sf). lia. }
  apply (HQ _ (acc t1 p sh1 cy1 mod N)).
  - split; [auto|]. split; [eapply shape_trans; eauto|]. rewrite E4, E2, Ef, Z.div_0_l by (pf (p256_pos (mp_len t2)); pose proof (mp_len_nonneg t2); lia). lia.
  - apply mg_reduced_mod with M; auto.
Qed.
End Facts.
