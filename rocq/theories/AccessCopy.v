(** Copies of numbers too large for the destination, bits set past the end, native
    integers stored in shorter buffers. *)
From Coq Require Import ZArith List Bool Lia.
Require Import Verif.Spec Verif.Monad Verif.Base Verif.Wp Verif.Pan Verif.ModelLimb Verif.LimbFacts Verif.LimbFacts2
  Verif.ModelBuf Verif.SpecBuf Verif.BufFacts Verif.BufFacts2 Verif.BufFacts3 Verif.BufProofs
  Verif.ModelAccess Verif.SpecAccess Verif.AccessFacts Verif.AccessProofs.
Import ListNotations.
Open Scope Z_scope.

Section Facts.
Context {c : cfg}.

Lemma index_small : forall b i, 0 <= i -> i * LB < 2 ^ UW -> index_used b i = i.
Proof.
  intros b i H0 H1. unfold index_used. pose proof LB_pos. assert (i mod (2 ^ UW / LB) = i).
  { apply Z.mod_small. split; [lia|]. pose proof UW_LB as X. set (K := 2 ^ UW / LB) in *. nia. }
  destruct (kind_of b), (debug c); auto.
Qed.
Lemma load_near : forall b i, mp_ok b -> 0 <= i -> (i + 1) * LB < 2 ^ UW -> acc (limb_exists b i) (load_l b i) (fun v => v = limb b i).
Proof.
  intros b i Hb H0 H1. pose proof LB_pos. pose proof (load_acc b i Hb H0) as H2. cbv zeta in H2. rewrite index_small in H2 by lia.
  destruct (small_index_same c b i 0 H0 H1) as (<- & _). exact H2.
Qed.
Lemma store_near : forall b i v, mp_ok b -> 0 <= i -> (i + 1) * LB < 2 ^ UW -> isl v ->
  acc (storable b v i) (store_l b i v) (fun b' => store_post b i (v mod lim b i) b').
Proof.
  intros b i v Hb H0 H1 Hv. pose proof LB_pos. pose proof (store_acc b i v Hb H0 Hv) as H2. cbv zeta in H2. rewrite index_small in H2 by lia.
  destruct (small_index_same c b i v H0 H1) as (_ & _ & <- & _). exact H2.
Qed.
Lemma in_small : forall b i, mp_ok b -> i * LB <= mp_len b -> (i + 1) * LB < 2 ^ UW.
Proof.
  intros b i [_ H] HL. assert (2 ^ 32 <= 2 ^ UW) by (apply Z.pow_le_mono_r; [lia|unfold UW; destruct (usize64 c); lia]).
  assert (LB <= 8) by (destruct LB_cases; lia). lia.
Qed.
Lemma ex_in : forall b i, i * LB < mp_len b -> limb_exists b i = true.
Proof. intros b i H. unfold limb_exists. replace (i * LB <? mp_len b) with true by (symmetry; apply Z.ltb_lt; lia). reflexivity. Qed.
Lemma wp_store_cut : forall b i v (Q : mp -> Prop), debug c = false -> mp_ok b -> 0 <= i < nlimbs b -> isl v ->
  (forall b', store_post b i (v mod lim b i) b' -> Q b') -> wp (store_l b i v) Q.
Proof.
  intros b i v Q D Hb Hi Hv HQ. assert (i * LB < mp_len b) by (apply nlimbs_lt; lia).
  pose proof (store_near b i v Hb ltac:(lia) (in_small b i Hb ltac:(lia)) Hv) as H1. unfold storable in H1. rewrite ex_in, D in H1 by auto.
  eapply wp_mono; [exact H1|exact HQ].
Qed.

(** ** Copying what does not fit *)
Lemma longer_src : forall dst src, mp_ok src -> 256 ^ mp_len dst <= mpval src -> mp_len dst < mp_len src.
Proof.
  intros dst src Hs H. pose proof (mpval_bound src Hs). destruct (Z_lt_le_dec (mp_len dst) (mp_len src)); auto. exfalso.
  assert (256 ^ mp_len src <= 256 ^ mp_len dst) by (apply Z.pow_le_mono_r; lia). lia.
Qed.
Lemma longer_nlimbs : forall dst src, mp_len dst < mp_len src -> nlimbs dst <= nlimbs src.
Proof.
  intros dst src H. pose proof (nlimbs_spec dst). pose proof (nlimbs_spec src). destruct LB_cases as [F|F]; rewrite F in *; lia.
Qed.
Lemma dassert_m_off : forall (m : M bool) (Q : unit -> Prop), debug c = false -> Q tt -> wp (dassert_m m) Q.
Proof. intros m Q D H. unfold dassert_m. rewrite D. exact H. Qed.
Lemma fits_pan : forall dst src A (k : unit -> M A), debug c = true -> mp_ok src -> 256 ^ mp_len dst <= mpval src ->
  panics (bind (dassert_m (let! n := find_last_set_byte_mp src in ret (n <=? mp_len dst))) k).
Proof.
  intros dst src A k D Hs H. apply dassert_m_pan; auto. apply wp_bind, wp_find_last_set_byte; auto. apply wp_ret. apply Z.leb_gt.
  pose proof (mpval_bound src Hs). pose proof (mp_len_nonneg dst). pose proof (nbytes_le_iff (mpval src) (mp_len dst) (proj1 (mpval_bound src Hs)) (mp_len_nonneg dst)) as [N _].
  destruct (Z_lt_le_dec (mp_len dst) ((nbits (mpval src) + 7) / 8)) as [L|L]; auto. exfalso. specialize (N L). lia.
Qed.
(** The last limb stored. *)
Lemma last_cut : forall dst d d1 V, mp_ok dst -> 0 < nlimbs dst -> let n := nlimbs dst in
  same_shape dst d -> mpval d = V mod B ^ (n - 1) + B ^ (n - 1) * (mpval dst / B ^ (n - 1)) ->
  store_post d (n - 1) (vlimb V (n - 1) mod lim d (n - 1)) d1 -> mpval d1 = V mod 256 ^ mp_len dst.
Proof.
  intros dst d d1 V Hd HN n Sd Vd Hp. assert (n = nlimbs dst) as EN by reflexivity.
  assert (0 <= n - 1 < nlimbs dst) as N1 by (clear - HN EN; lia). pose proof (vmod_bound V (n - 1) (proj1 N1)). rewrite (lim_shape dst d) in Hp by auto.
  pose proof (lim_pos dst (n - 1) N1) as LP.
  assert (isl (vlimb V (n - 1) mod lim dst (n - 1))) as HI.
  { pose proof (Z.mod_pos_bound (vlimb V (n - 1)) (lim dst (n - 1)) (proj1 LP)) as MP. clear - LP MP. unfold isl. lia. }
  destruct (up_step d d1 (mpval dst) (V mod B ^ (n - 1)) (n - 1) _ (proj1 N1) H Vd HI Hp) as [E _].
  replace (n - 1 + 1) with n in E by (clear; lia). rewrite (vdiv_full dst n Hd) in E by (clear - EN; lia). rewrite Z.mul_0_r, Z.add_0_r in E. rewrite E.
  rewrite <- (lim_total dst HN). fold n. rewrite mod_mul_split by (try (apply Bpow_pos; apply N1); apply LP).
  unfold vlimb. assert (exists k, 0 < k /\ B = lim dst (n - 1) * k) as (k & K0 & K).
  { unfold lim. set (m := Z.min _ _). assert (0 <= m <= LB). { unfold m. pose proof LB_pos as P. pose proof (proj1 (nlimbs_lt dst (n - 1) (proj1 N1)) (proj2 N1)) as P2. clear - P P2. lia. }
    exists (256 ^ (LB - m)). clear - H0. split; [apply p256_pos; lia|]. rewrite B_256', <- Z.pow_add_r by lia. f_equal. lia. }
  rewrite K. rewrite mod_mul_le by (apply LP || exact K0). ring.
Qed.

Lemma wp_copy_cut : forall dst src (Q : mp -> Prop), debug c = false -> mp_ok dst -> mp_ok src -> mp_len dst < mp_len src ->
  (forall d', becomes dst d' (mpval src mod 256 ^ mp_len dst) -> Q d') -> wp (copy_from dst src) Q.
Proof.
  intros dst src Q D Hd Hs Hl HQ. unfold copy_from. pose proof (longer_nlimbs _ _ Hl) as HN.
  pose proof (nlimbs_spec dst) as ND. pose proof (nlimbs_spec src) as NS. pose proof LB_pos as HLB.
  pose proof (mpval_bound src Hs) as VS. pose proof (mp_len_nonneg dst) as LD.
  apply wp_bind, dassert_m_off; auto. apply wp_mif; intros E1; [apply Z.eqb_eq in E1; rewrite E1 in NS; lia|].
  apply Z.eqb_neq in E1. apply wp_mif; intros E2.
  { apply Z.eqb_eq in E2. apply wp_ret, HQ. split; auto. split; [apply shape_refl|].
    rewrite E2 in ND. pose proof (mpval_bound dst Hd) as VD. replace (mp_len dst) with 0 in * by lia.
    rewrite Z.pow_0_r in *. rewrite Z.mod_1_r. lia. }
  apply Z.eqb_neq in E2. replace (Z.min (nlimbs src) (nlimbs dst)) with (nlimbs dst) by lia. set (n := nlimbs dst) in *.
  apply wp_bind.
  eapply wp_for with (I := fun i d => mp_ok d /\ same_shape dst d /\
     mpval d = mpval src mod B ^ i + B ^ i * (mpval dst / B ^ i)); [lia| | |].
  - split; [auto|split; [apply shape_refl|]]. rewrite vmod_0, vdiv_0, Z.pow_0_r. lia.
  - intros i d Hi (Od & Sd & Vd). apply wp_bind, wp_load_full; auto; [lia|apply nlimbs_full; lia|].
    apply wp_store_full; auto; [lia| |apply limb_isl|].
    { rewrite (shape_len dst d) by auto. apply nlimbs_full. lia. }
    intros d' Hp. split; [apply Hp|split; [eapply shape_trans; [eauto|apply Hp]|]].
    destruct (up_step d d' (mpval dst) (mpval src mod B ^ i) i (limb src i)) as [E _];
      auto; [lia|apply vmod_bound; lia|apply limb_isl|]. rewrite E, limb_vlimb, vmod_S by lia. auto.
  - intros d (Od & Sd & Vd). apply wp_bind, wp_load; auto; [lia|]. apply wp_bind, dassert_m_off; auto.
    apply wp_bind, wp_store_cut; auto; [rewrite (shape_nlimbs dst d) by auto; unfold n in *; lia|apply limb_isl|].
    intros d1 Hp. rewrite limb_vlimb in Hp.
    pose proof (last_cut dst d d1 (mpval src) Hd ltac:(lia) Sd Vd Hp) as E.
    apply wp_clear_above; [apply Hp|lia|]. intros d2 (O2 & S2 & V2). apply HQ. split; auto.
    split; [eapply shape_trans; [apply Sd|]; eapply shape_trans; [apply Hp|auto]|].
    rewrite V2, E. apply Z.mod_small. pose proof (Z.mod_pos_bound (mpval src) (256 ^ mp_len dst) (p256_pos _ LD)).
    assert (256 ^ mp_len dst <= 256 ^ mp_len src) by (apply Z.pow_le_mono_r; lia). lia.
Qed.

Lemma wp_copy_cond_cut : forall dst src (z : bool) (Q : mp -> Prop), debug c = false -> mp_ok dst -> mp_ok src -> mp_len dst < mp_len src ->
  (forall d', becomes dst d' (if z then mpval src mod 256 ^ mp_len dst else mpval dst) -> Q d') -> wp (copy_from_cond dst src (chc z)) Q.
Proof.
  intros dst src z Q D Hd Hs Hl HQ. unfold copy_from_cond. pose proof (longer_nlimbs _ _ Hl) as HN.
  pose proof (nlimbs_spec dst) as ND. pose proof (nlimbs_spec src) as NS. pose proof LB_pos as HLB.
  pose proof (mpval_bound src Hs) as VS. pose proof (mp_len_nonneg dst) as LD. pose proof (mpval_bound dst Hd) as VD.
  assert (HQ' : forall d', becomes dst d' ((if z then mpval src else mpval dst) mod 256 ^ mp_len dst) -> Q d').
  { intros d' Hb. apply HQ. destruct z; auto. rewrite (Z.mod_small (mpval dst)) in Hb by lia. auto. } clear HQ.
  apply wp_bind, dassert_m_off; auto. apply wp_mif; intros E1; [apply Z.eqb_eq in E1; rewrite E1 in NS; lia|].
  apply Z.eqb_neq in E1. apply wp_mif; intros E2.
  { apply Z.eqb_eq in E2. apply wp_ret, HQ'. split; auto. split; [apply shape_refl|].
    rewrite E2 in ND. replace (mp_len dst) with 0 in * by lia.
    rewrite Z.pow_0_r in *. rewrite Z.mod_1_r. lia. }
  apply Z.eqb_neq in E2. replace (Z.min (nlimbs src) (nlimbs dst)) with (nlimbs dst) by lia. set (n := nlimbs dst) in *.
  set (V := if z then mpval src else mpval dst) in *.
  assert (SEL : forall i, lc_select (chc z) (vlimb (mpval dst) i) (limb src i) = vlimb V i).
  { intros. rewrite lc_select_chc by (apply vlimb_isl || apply limb_isl). unfold V. destruct z; reflexivity. }
  apply wp_bind.
  eapply wp_for with (I := fun i d => mp_ok d /\ same_shape dst d /\
     mpval d = V mod B ^ i + B ^ i * (mpval dst / B ^ i)); [lia| | |].
  - split; [auto|split; [apply shape_refl|]]. rewrite vmod_0, vdiv_0, Z.pow_0_r. lia.
  - intros i d Hi (Od & Sd & Vd).
    assert (0 <= V mod B ^ i < B ^ i) by (apply vmod_bound; lia).
    apply wp_bind, wp_load_full; auto; [lia|rewrite (shape_len dst d) by auto; apply nlimbs_full; lia|].
    rewrite (up_limb d (mpval dst) (V mod B ^ i)) by (auto; lia).
    apply wp_bind, wp_load_full; auto; [lia|apply nlimbs_full; lia|]. rewrite SEL.
    apply wp_store_full; auto; [lia| |apply vlimb_isl|].
    { rewrite (shape_len dst d) by auto. apply nlimbs_full. lia. }
    intros d' Hp. split; [apply Hp|split; [eapply shape_trans; [eauto|apply Hp]|]].
    destruct (up_step d d' (mpval dst) (V mod B ^ i) i (vlimb V i)) as [E _];
      auto; [lia|apply vlimb_isl|]. rewrite E, vmod_S by lia. auto.
  - intros d (Od & Sd & Vd).
    assert (0 <= V mod B ^ (n - 1) < B ^ (n - 1)) by (apply vmod_bound; lia).
    apply wp_bind, wp_load; auto; [rewrite (shape_nlimbs dst d) by auto; unfold n in *; lia|].
    rewrite (up_limb d (mpval dst) (V mod B ^ (n - 1))) by (auto; lia).
    apply wp_bind, wp_load; auto; [lia|]. rewrite SEL. apply wp_bind, dassert_m_off; auto.
    apply wp_bind, wp_store_cut; auto; [rewrite (shape_nlimbs dst d) by auto; unfold n in *; lia|apply vlimb_isl|].
    intros d1 Hp. pose proof (last_cut dst d d1 V Hd ltac:(lia) Sd Vd Hp) as E.
    assert (same_shape dst d1) as Sd1 by (eapply shape_trans; [apply Sd|apply Hp]).
    apply wp_clear_cond_off; [apply Hp|lia|right; rewrite (shape_len dst d1) by auto; lia|].
    apply HQ'. split; [apply Hp|]. auto.
Qed.

(** ** Setting bits past the end *)
Lemma bit_above : forall l p j, 0 <= l < 2 ^ p -> 0 <= p <= j -> Z.testbit l j = false.
Proof.
  intros l p j Hl Hp. assert (2 ^ p <= 2 ^ j) by (apply Z.pow_le_mono_r; lia). apply Z.testbit_false; [lia|].
  rewrite Z.div_small by lia. reflexivity.
Qed.
Lemma set_above : forall l p (v : bool), 0 <= p < W -> 0 <= l < 2 ^ p ->
  Z.lor (Z.land l (lnot (2 ^ p))) (if v then 2 ^ p else 0) = l + if v then 2 ^ p else 0.
Proof.
  intros l p v Hp Hl. assert (Z.land l (lnot (2 ^ p)) = l) as ->.
  { apply Z.bits_inj'. intros j Hj. rewrite Z.land_spec. destruct (Z.testbit l j) eqn:E; [|reflexivity].
    destruct (Z_lt_le_dec j p) as [L|L].
    - unfold lnot. rewrite Z.lxor_spec, Z.ones_spec_low, Z.pow2_bits_false by lia. reflexivity.
    - rewrite (bit_above l p j) in E by lia. discriminate. }
  destruct v; [|rewrite Z.lor_0_r; lia]. rewrite Z.lor_comm. pose proof (lor_shift_add 1 l p ltac:(lia) Hl) as E. rewrite Z.mul_1_l in E. lia.
Qed.
Lemma set_bit_read : forall b pos (v : bool), mp_ok b -> 0 <= pos < 2 ^ UW -> 8 * mp_len b <= pos -> let k := pos / W in
  let x := limb b k + (if v then 2 ^ (pos mod W) else 0) in
  acc (negb (debug c && (nlimbs b <=? k)) && limb_exists b k && storable b x k) (set_bit_to b pos v) (fun b' => store_post b k (x mod lim b k) b').
Proof.
  intros b pos v Hb Hp HL k x. pose proof LB_pos as HLB. pose proof W_pos as HW. assert (0 <= k) as K0 by (apply Z.div_pos; lia).
  pose proof (Z.mod_pos_bound pos W HW) as MB. assert (pos = W * k + pos mod W) as DM by (apply Z.div_mod; lia).
  assert ((k + 1) * LB < 2 ^ UW) as KU.
  { assert (W = 8 * LB) as EW by reflexivity. assert (2 ^ 32 <= 2 ^ UW) by (apply Z.pow_le_mono_r; [lia|unfold UW; destruct (usize64 c); lia]).
    assert (LB <= 8) by (destruct LB_cases; lia). rewrite EW in *. clear - H H0 DM MB Hp HLB K0. nia. }
  assert (LLT : limb b k < 2 ^ (pos mod W)).
  { destruct (Z_lt_le_dec k (nlimbs b)) as [N|N].
    - pose proof (limb_lim b k Hb ltac:(lia)) as LL. rewrite lim_pow2 in LL by lia.
      eapply Z.lt_le_trans; [apply LL|]. apply Z.pow_le_mono_r; [lia|]. unfold W in *. lia.
    - replace (limb b k) with 0; [apply Z.pow_pos_nonneg; lia|]. symmetry. unfold limb. rewrite vdiv_full by auto. apply Z.mod_0_l. pose proof B_pos; lia. }
  pose proof (limb_isl b k) as LI. assert (0 <= limb b k < 2 ^ (pos mod W)) as LR by (split; [apply LI|exact LLT]).
  pose proof (pow2_lt_B (pos mod W) MB) as PB. assert (0 < 2 ^ (pos mod W)) as PP by (apply Z.pow_pos_nonneg; lia).
  assert (isl x) as XI.
  { pose proof (set_above (limb b k) (pos mod W) v MB LR) as E. fold x in E. rewrite <- E.
    assert (forall y, 0 <= y < 2 ^ W <-> isl y) as EB by (intros; unfold isl; rewrite B_eq; tauto).
    apply EB, lor_bound; [lia| |].
    - apply land_bound_l; first [lia|apply EB; exact LI|apply isl_lnot; unfold isl; lia].
    - apply EB. unfold isl. destruct v; lia. }
  unfold set_bit_to. fold k.
  destruct (debug c && (nlimbs b <=? k)) eqn:E1.
  { apply andb_true_iff in E1. destruct E1 as [D E1]. apply Z.leb_le in E1. cbn [negb andb]. unfold acc.
    apply pan_l, pan_dassert; auto. apply Z.ltb_ge. auto. }
  cbn [negb andb]. pose proof (load_near b k Hb K0 KU) as HLd. pose proof (store_near b k x Hb K0 KU XI) as HSt.
  destruct (limb_exists b k) eqn:E2; cbn [andb]; unfold acc in HLd |- *.
  2:{ apply pan_any. intros [] _. apply pan_l. exact HLd. }
  assert (HR : wp (let! l := load_l b k in let! m := lshl 1 (pos mod W) in let! ch := lc_new (b2z v) in
     ret (Z.lor (Z.land l (lnot m)) (lc_select ch 0 m))) (fun y => y = x)).
  { apply wp_bind. eapply wp_mono; [exact HLd|]. intros l ->. apply wp_bind, wp_lshl; [lia|]. rewrite Z.mul_1_l, Z.mod_small by lia.
    apply wp_bind, (wp_lc_new v); [reflexivity|]. rewrite lc_select_chc by (unfold isl; lia). apply wp_ret.
    apply set_above; auto. }
  assert (HD : wp (dassert (k <? nlimbs b)) (fun _ => True)).
  { unfold dassert. destruct (debug c) eqn:D; [|exact I]. cbn [andb] in E1. apply Z.leb_gt in E1.
    replace (k <? nlimbs b) with true by (symmetry; apply Z.ltb_lt; lia). exact I. }
  apply wp_bind_inv in HR.
  destruct (storable b x k); unfold acc in *.
  - apply wp_bind. eapply wp_mono; [exact HD|]. intros [] _. apply wp_bind. eapply wp_mono; [exact HR|]. intros l Hl.
    apply wp_bind_inv in Hl. apply wp_bind. eapply wp_mono; [exact Hl|]. intros m Hm. apply wp_bind_inv in Hm. apply wp_bind.
    eapply wp_mono; [exact Hm|]. intros ch Hch. pose proof (Hch : Z.lor (Z.land l (lnot m)) (lc_select ch 0 m) = x) as EX. rewrite EX. exact HSt.
  - apply pan_any. intros [] _. apply pan_wp. eapply wp_mono; [exact HR|]. intros l Hl.
    apply wp_bind_inv in Hl. apply pan_wp. eapply wp_mono; [exact Hl|]. intros m Hm. apply wp_bind_inv in Hm. apply pan_wp.
    eapply wp_mono; [exact Hm|]. intros ch Hch. pose proof (Hch : Z.lor (Z.land l (lnot m)) (lc_select ch 0 m) = x) as EX. rewrite EX. exact HSt.
Qed.
End Facts.

Lemma copy_large : forall (c : cfg) dst src, mp_ok dst -> mp_ok src -> 256 ^ mp_len dst <= mpval src ->
  (debug c = true -> panics (copy_from dst src)) /\
  (debug c = false -> yields (copy_from dst src) (fun d => becomes dst d (mpval src mod 256 ^ mp_len dst))).
Proof.
  intros c dst src Hd Hs H. split; intros D.
  - apply fits_pan; auto.
  - apply wp_yields, wp_copy_cut; auto. apply longer_src; auto.
Qed.
Lemma copy_cond_large : forall (c : cfg) dst src (cond : bool), mp_ok dst -> mp_ok src -> 256 ^ mp_len dst <= mpval src ->
  (debug c = true -> panics (copy_from_cond dst src (chc cond))) /\
  (debug c = false -> yields (copy_from_cond dst src (chc cond)) (fun d => becomes dst d (if cond then mpval src mod 256 ^ mp_len dst else mpval dst))).
Proof.
  intros c dst src cond Hd Hs H. split; intros D.
  - apply fits_pan; auto.
  - apply wp_yields, wp_copy_cond_cut; auto. apply longer_src; auto.
Qed.

Lemma set_bit_past : forall (c : cfg) b i v, mp_ok b -> 8 * mp_len b <= i < 2 ^ UW -> let k := i / (8 * LB) in
  let kept := k < nlimbs b /\ (v = false \/ debug c = false) \/ debug c = false /\ kind_of b <> KNE /\ k * LB = mp_len b in
  (kept -> yields (set_bit_to b i v) (fun b' => becomes b b' (mpval b))) /\ (~ kept -> panics (set_bit_to b i v)).
Proof.
  intros c b i v Hb Hi k kept. pose proof (mp_len_nonneg b) as L0. pose proof W_pos as HW. pose proof LB_pos as HLB.
  pose proof (set_bit_read b i v Hb ltac:(lia) ltac:(lia)) as H. cbv zeta in H. change (i / W) with k in H.
  assert (0 <= k) as K0 by (apply Z.div_pos; lia).
  pose proof (Z.mod_pos_bound i W HW) as MB. assert (i = W * k + i mod W) as DM by (apply Z.div_mod; lia).
  set (x := limb b k + _) in H. assert (XM : limb_exists b k = true -> x mod lim b k = limb b k /\ (lim b k <= x <-> v = true)).
  { intros E. assert (k * LB <= mp_len b) as KL.
    { apply orb_true_iff in E. destruct E as [E|E]; [apply Z.ltb_lt in E; lia|]. apply andb_true_iff in E. destruct E as [E _]. apply Z.eqb_eq in E. lia. }
    assert (lim b k = 2 ^ (8 * (mp_len b - k * LB))) as EL.
    { unfold lim. rewrite Z.min_r by (unfold W in *; lia). apply pow256. lia. }
    assert (0 <= limb b k < lim b k) as LL.
    { destruct (Z_lt_le_dec k (nlimbs b)); [apply limb_lim; auto; lia|].
      replace (limb b k) with 0; [rewrite EL; split; [lia|apply Z.pow_pos_nonneg; lia]|]. symmetry. unfold limb. rewrite vdiv_full by auto. apply Z.mod_0_l. pose proof B_pos; lia. }
    rewrite EL in *. set (e := 8 * (mp_len b - k * LB)) in *. assert (0 <= e <= i mod W) as HE by (unfold e, W in *; lia).
    assert (2 ^ (i mod W) = 2 ^ (i mod W - e) * 2 ^ e) as EP by (rewrite <- Z.pow_add_r by lia; f_equal; lia).
    assert (2 ^ e <= 2 ^ (i mod W)) as PL by (apply Z.pow_le_mono_r; lia).
    assert (0 < 2 ^ e) as P0 by (apply Z.pow_pos_nonneg; lia).
    unfold x. destruct v.
    - split.
      + rewrite EP, Z.mod_add by lia. apply Z.mod_small. lia.
      + split; [auto|]. intros _. lia.
    - rewrite Z.add_0_r. split; [apply Z.mod_small; lia|]. split; [lia|discriminate]. }
  assert (NK : k < nlimbs b <-> k * LB < mp_len b) by (apply nlimbs_lt; auto).
  assert (POST : forall b', limb_exists b k = true -> store_post b k (x mod lim b k) b' -> becomes b b' (mpval b)).
  { intros b' E (O & S & V). split; auto. split; auto. rewrite V, (proj1 (XM E)). ring. }
  assert (EX : limb_exists b k = true <-> k < nlimbs b \/ k * LB = mp_len b /\ (kind_of b = KBE \/ kind_of b = KLE /\ debug c = false)).
  { rewrite NK. unfold limb_exists. rewrite orb_true_iff, andb_true_iff, Z.ltb_lt, Z.eqb_eq.
    destruct (kind_of b), (debug c); cbn [negb]; intuition congruence. }
  assert (KE : kept <-> negb (debug c && (nlimbs b <=? k)) && limb_exists b k && storable b x k = true).
  { unfold kept, storable. change (limb_room b k) with (lim b k). rewrite !andb_true_iff, EX. destruct (debug c) eqn:D; cbn [andb].
    - rewrite !negb_true_iff, !Z.leb_gt. split.
      + intros [[H1 H2]|[H1 _]]; [|discriminate]. destruct H2 as [H2|H2]; [|discriminate].
        assert (limb_exists b k = true) as E by (apply EX; auto).
        repeat split; auto. destruct (Z_lt_le_dec x (lim b k)) as [C|C]; auto. apply (XM E) in C. congruence.
      + intros [[H1 H2] [H3 H4]]. left. split; auto. left. destruct v; auto. exfalso.
        assert (lim b k <= x) by (apply (XM (proj2 EX H3)); auto). lia.
    - cbn [negb]. destruct (kind_of b); intuition congruence. }
  destruct (negb _ && _ && _) eqn:E.
  - split; [intros _|intros N; exfalso; apply N, KE; auto]. apply wp_yields. eapply wp_mono; [exact H|].
    intros b' Hp. apply POST; auto. apply andb_true_iff in E. destruct E as [E _]. apply andb_true_iff in E. apply E.
  - split; [intros K; exfalso; apply KE in K; discriminate|intros _; exact H].
Qed.

(** ** Native integers in shorter buffers *)
Section Native.
Context {c : cfg}.
Lemma pan_for_step : forall T lo hi (body : Z -> T -> M T) s, lo < hi -> (forall s', returns (body lo s) s' -> panics (zfor (lo + 1) hi body s')) -> panics (zfor lo hi body s).
Proof.
  intros T lo hi body s H HP. unfold zfor in *. replace (Z.to_nat (hi - lo)) with (S (Z.to_nat (hi - (lo + 1)))) by lia. cbn [for_aux].
  apply pan_any. intros [] _. apply pan_any. intros s' Hs'. apply HP. exact Hs'.
Qed.
Lemma native_mask : forall sz x, (sz = 1 \/ sz = 2 \/ sz = 4 \/ sz = 8) -> 0 <= x < 2 ^ (8 * sz) -> Z.land x (lnot 0 mod 2 ^ (8 * sz)) mod B = x mod B.
Proof.
  intros sz x Hsz Hx. assert (0 < sz) by lia. rewrite lnot_0. rewrite <- ones_W.
    assert (Z.ones W mod 2 ^ (8 * sz) = Z.ones (Z.min W (8 * sz))) as E.
    { pose proof W_pos. destruct (Z.min_spec W (8 * sz)) as [[? ->]|[? ->]].
      - apply Z.mod_small. rewrite ones_eq. pf (pow2_gt0 W).
        assert (2 ^ W <= 2 ^ (8 * sz)) by (apply Z.pow_le_mono_r; lia). lia.
      - rewrite !ones_eq. pf (pow2_gt0 (8 * sz)). pf (pow2_gt0 (W - 8 * sz)).
        apply mod_eq_of with (q := 2 ^ (W - 8 * sz) - 1); [lia|].
        replace (2 ^ W) with (2 ^ (8 * sz) * 2 ^ (W - 8 * sz)) by (rewrite <- Z.pow_add_r by lia; f_equal; lia). lia. }
    rewrite E. pose proof W_pos. rewrite Z.land_ones by lia.
    destruct (Z.min_spec W (8 * sz)) as [[? ->]|[? ->]].
    - rewrite B_eq. apply Z.mod_mod. pose proof (pow2_gt0 W); lia.
    - rewrite (Z.mod_small x) by lia. auto.
Qed.
(** In release builds, storing does not change the shape, and panics exactly if the limb does not exist. *)
Lemma store_rel : forall b i v, debug c = false -> mp_ok b -> 0 <= i <= 1 -> isl v ->
  acc (limb_exists b i) (store_l b i v) (fun b' => store_post b i (v mod lim b i) b').
Proof.
  intros b i v D Hb Hi Hv. assert ((i + 1) * LB < 2 ^ UW) as HU.
  { assert (2 ^ 32 <= 2 ^ UW) by (apply Z.pow_le_mono_r; [lia|unfold UW; destruct (usize64 c); lia]).
    assert (0 < LB <= 8) by (destruct LB_cases; lia). nia. }
  pose proof (store_near b i v Hb ltac:(lia) HU Hv) as H. unfold storable in H. rewrite D in H. cbn [andb negb] in H. rewrite andb_true_r in H. exact H.
Qed.

Definition native_body (sz i : Z) (s : mp * Z) : M (mp * Z) :=
  let '(b, value) := s in
  let! b := store_l b i (Z.land value (lnot 0 mod 2 ^ (8 * sz)) mod B) in ret (b, value / 2 ^ Z.min W (8 * sz - 1)).
Lemma set_native_eq : forall sz b v, set_to_native sz b v =
  (dassert (sz <=? mp_len b) ;; let! b := clear_bytes_above b sz in let! p := zfor 0 (ct_mp_nlimbs sz) (native_body sz) (b, v) in let '(b, _) := p in ret b).
Proof. reflexivity. Qed.

Lemma for1 : forall S (body : Z -> S -> M S) s (P : S -> Prop) e, acc e (body 0 s) P -> acc e (zfor 0 1 body s) P.
Proof.
  intros S body s P [] H; unfold acc in *.
  - eapply wp_for with (I := fun i t => (i = 0 -> t = s) /\ (i = 1 -> P t)); [lia|split; [auto|lia]| |].
    + intros i t Hi [H1 _]. replace i with 0 by lia. rewrite H1 by lia. eapply wp_mono; [exact H|]. intros t' Ht. split; [lia|auto].
    + intros t [_ H1]. auto.
  - apply pan_for; [lia|auto].
Qed.
Lemma for2 : forall S (body : Z -> S -> M S) s (P R : S -> Prop) e e', acc e' (body 0 s) R -> (e = true -> e' = true) ->
  (e' = true -> forall t, R t -> acc e (body 1 t) P) -> acc e (zfor 0 2 body s) P.
Proof.
  intros S body s P R e e' H0 HE H1. destruct e; unfold acc in *.
  - rewrite HE in * by auto. eapply wp_for with (I := fun i t => (i = 0 -> t = s) /\ (i = 1 -> R t) /\ (i = 2 -> P t)); [lia|split; [auto|lia]| |].
    + intros i t Hi (A0 & A1 & _). assert (i = 0 \/ i = 1) as [-> | ->] by lia.
      * rewrite A0 by lia. eapply wp_mono; [exact H0|]. intros t' Ht. split; [lia|]. split; [auto|lia].
      * eapply wp_mono; [apply H1; auto|]. intros t' Ht. split; [lia|]. split; [lia|auto].
    + intros t (_ & _ & A). auto.
  - apply pan_for_step; [lia|]. intros t Ht. destruct e'.
    + apply pan_for; [lia|]. apply H1; auto. apply wp_returns in H0. destruct H0 as (a & Ha & HR). unfold returns in *. replace t with a by congruence. exact HR.
    + exfalso. eapply pan_not; [exact H0|exact Ht].
Qed.
Lemma acc_mono : forall A e (m : M A) (P Q : A -> Prop), acc e m P -> (forall a, P a -> Q a) -> acc e m Q.
Proof. intros A [] m P Q H HI; unfold acc in *; auto. eapply wp_mono; eauto. Qed.

Lemma set_native_short : forall sz b v, (sz = 1 \/ sz = 2 \/ sz = 4 \/ sz = 8) -> debug c = false -> mp_ok b -> mp_len b < sz -> 0 <= v < 256 ^ sz ->
  acc (limb_exists b (ct_mp_nlimbs sz - 1)) (set_to_native sz b v) (fun b' => becomes b b' (v mod 256 ^ mp_len b)).
Proof.
  intros sz b v Hsz D Hb HL Hv. rewrite set_native_eq. pose proof LB_pos as HLB. pose proof B_pos as HB. pose proof (mp_len_nonneg b) as L0.
  assert (0 < sz) as SP by lia. assert (B <> 0) as B0 by lia.
  rewrite dassert_release by auto.
  assert (HC : wp (clear_bytes_above b sz) (fun b0 => mp_ok b0 /\ same_shape b b0 /\ mpval b0 = mpval b)).
  { apply wp_clear_above; auto; [lia|]. intros b0 (O & S & V). split; auto. split; auto. rewrite V. apply Z.mod_small.
    pose proof (mpval_bound b Hb). assert (256 ^ mp_len b <= 256 ^ sz) by (apply Z.pow_le_mono_r; lia). lia. }
  set (n := ct_mp_nlimbs sz). assert (HSC : (sz <= LB /\ n = 1) \/ (sz = 2 * LB /\ n = 2)).
  { unfold n. destruct LB_cases as [F|F]; rewrite F in *; destruct Hsz as [-> |[-> |[-> | ->]]]; unfold ct_mp_nlimbs; rewrite ?F;
    first [left; split; [lia|reflexivity]|right; split; [lia|reflexivity]]. }
  assert (ML : forall b0, mp_ok b0 -> same_shape b b0 -> mpval b0 = mpval b ->
    acc (limb_exists b (n - 1)) (zfor 0 n (native_body sz) (b0, v)) (fun p => becomes b (fst p) (v mod 256 ^ mp_len b))).
  { intros b0 O0 S0 V0. pose proof (mpval_bound b Hb) as VB. pose proof (shape_len _ _ S0) as SL.
    assert (EXS : forall b', same_shape b b' -> forall j, limb_exists b' j = limb_exists b j).
    { intros b' [S1 S2] j. unfold limb_exists. rewrite S1, S2. reflexivity. }
    assert (M0 : Z.land v (lnot 0 mod 2 ^ (8 * sz)) mod B = v mod B).
    { apply native_mask; auto. rewrite <- pow256 by lia. exact Hv. }
    destruct HSC as [[HS ->]|[HS ->]].
    - apply for1. replace (1 - 1) with 0 by lia. unfold native_body. rewrite M0.
      assert (v < B) as VBB. { eapply Z.lt_le_trans; [apply Hv|]. rewrite B_256'. apply Z.pow_le_mono_r; lia. }
      rewrite (Z.mod_small v) by lia.
      apply acc_map. rewrite <- (EXS b0 S0). eapply acc_mono; [apply store_rel; auto; [lia|unfold isl; lia]|].
      intros b' (O & S & V). cbn [fst]. split; auto. split; [eapply shape_trans; eauto|]. rewrite V, V0.
      unfold lim, limb. rewrite SL, Z.mul_0_l, Z.sub_0_r, Z.min_r by lia. rewrite Z.pow_0_r, Z.div_1_r, V0.
      rewrite (Z.mod_small (mpval b) B). { lia. }
      split; [lia|]. eapply Z.lt_le_trans; [apply VB|]. rewrite B_256'. apply Z.pow_le_mono_r; lia.
    - replace (2 - 1) with 1 by lia.
      set (R := fun p : mp * Z => mp_ok (fst p) /\ same_shape b (fst p) /\ snd p = v / B /\
         (LB <= mp_len b -> mpval (fst p) = v mod B + B * (mpval b / B))).
      assert (exists e', acc e' (native_body sz 0 (b0, v)) R /\ (limb_exists b 1 = true -> e' = true)) as (e' & H1 & H2).
      { exists (limb_exists b 0). split.
        - unfold native_body. rewrite M0. apply acc_map. rewrite <- (EXS b0 S0).
          eapply acc_mono; [apply store_rel; auto; [lia|apply Z.mod_pos_bound; auto]|].
          intros b' (O & S & V). unfold R. cbn [fst snd]. split; auto. split; [eapply shape_trans; eauto|]. split.
          + replace (Z.min W (8 * sz - 1)) with W by (unfold W; lia). rewrite <- B_eq. reflexivity.
          + intros LL. rewrite V, V0. unfold lim, limb. rewrite SL, Z.mul_0_l, Z.sub_0_r, Z.min_l by lia. rewrite <- B_256', Z.mod_mod by lia.
            rewrite Z.pow_0_r, Z.div_1_r, V0. pose proof (Z.div_mod (mpval b) B B0) as DM. clear - DM. lia.
        - intros E. apply ex_in. apply orb_true_iff in E. destruct E as [E|E]; [apply Z.ltb_lt in E; lia|].
          apply andb_true_iff in E. destruct E as [E _]. apply Z.eqb_eq in E. lia. }
      eapply for2; [exact H1|exact H2|]. intros _ [b1 x] (O1 & S1 & X1 & V1). cbn [fst snd] in *.
      unfold native_body. assert (0 <= x < B) as XB.
      { subst x. split; [apply Z.div_pos; lia|]. apply Z.div_lt_upper_bound; [lia|]. rewrite B_256' in *. rewrite <- Z.pow_add_r by lia.
        replace (LB + LB) with sz by lia. apply Hv. }
      rewrite native_mask; auto.
      2:{ split; [apply XB|]. eapply Z.lt_le_trans; [apply XB|]. rewrite B_eq. apply Z.pow_le_mono_r; [lia|]. unfold W. lia. }
      rewrite (Z.mod_small x) by lia.
      apply acc_map. rewrite <- (EXS b1 S1). pose proof (store_rel b1 1 x D O1 ltac:(lia) XB) as HSt. cbn [fst].
      destruct (limb_exists b1 1) eqn:E; [|exact HSt]. unfold acc in *. eapply wp_mono; [exact HSt|]. intros b' (O & S & V).
      assert (LB <= mp_len b) as LL.
      { rewrite (EXS b1 S1) in E. apply orb_true_iff in E. destruct E as [E|E]; [apply Z.ltb_lt in E; lia|].
        apply andb_true_iff in E. destruct E as [E _]. apply Z.eqb_eq in E. lia. }
      split; auto. split; [eapply shape_trans; eauto|]. specialize (V1 LL). rewrite V. unfold limb. rewrite Z.pow_1_r, V1.
      pose proof (Z.mod_pos_bound v B HB) as VM. rewrite (Z.mul_comm B), Z.div_add, (Z.div_small (v mod B)), Z.add_0_l by lia.
      assert (0 <= mpval b / B < B) as MB.
      { split; [apply Z.div_pos; lia|]. apply Z.div_lt_upper_bound; [lia|]. eapply Z.lt_le_trans; [apply VB|]. rewrite B_256', <- Z.pow_add_r by lia.
        apply Z.pow_le_mono_r; lia. }
      rewrite (Z.mod_small (mpval b / B)) by lia. unfold lim. rewrite (shape_len _ _ S1), Z.min_r by lia.
      replace (256 ^ mp_len b) with (B * 256 ^ (mp_len b - 1 * LB)) by (rewrite B_256', <- Z.pow_add_r by lia; f_equal; lia).
      rewrite mod_mul_split by (auto; apply p256_pos; lia). rewrite <- X1. ring. }
  destruct (limb_exists b (n - 1)); unfold acc in *.
  - apply wp_bind. eapply wp_mono; [exact HC|]. intros b0 (O0 & S0 & V0). apply wp_bind. eapply wp_mono; [apply ML; auto|].
    intros [b' x] Hp. exact Hp.
  - apply pan_wp. eapply wp_mono; [exact HC|]. intros b0 (O0 & S0 & V0). apply pan_l. apply ML; auto.
Qed.
End Native.

Lemma native_store_short : forall (c : cfg) sz b v, mp_ok b -> (sz = 1 \/ sz = 2 \/ sz = 4 \/ sz = 8) -> mp_len b < sz -> 0 <= v < 256 ^ sz ->
  let n := (sz + LB - 1) / LB in
  let works := debug c = false /\ (n <= nlimbs b \/ mp_len b = (n - 1) * LB /\ kind_of b <> KNE) in
  (works -> yields (set_to_native sz b v) (fun b' => becomes b b' (v mod 256 ^ mp_len b))) /\
  (~ works -> panics (set_to_native sz b v)).
Proof.
  intros c sz b v Hb Hsz HL Hv n works. destruct (debug c) eqn:D.
  - split; [intros [? _]; discriminate|]. intros _. apply pan_l, pan_dassert; auto. apply Z.leb_gt. auto.
  - pose proof (set_native_short sz b v Hsz D Hb HL Hv) as H. change (ct_mp_nlimbs sz) with n in H.
    assert (1 <= n) as N1. { unfold n. destruct LB_cases as [F|F]; rewrite F; destruct Hsz as [-> |[-> |[-> | ->]]]; cbv; discriminate. }
    assert (works <-> limb_exists b (n - 1) = true) as E.
    { unfold works, limb_exists. rewrite D. rewrite orb_true_iff, andb_true_iff, Z.ltb_lt, Z.eqb_eq. rewrite <- nlimbs_lt by lia.
      assert (n <= nlimbs b <-> n - 1 < nlimbs b) as -> by lia. destruct (kind_of b); cbn [negb]; intuition congruence. }
    destruct (limb_exists b (n - 1)); unfold acc in H.
    + split; [intros _; apply wp_yields; exact H|intros C; exfalso; apply C, E; auto].
    + split; [intros C; apply E in C; discriminate|intros _; exact H].
Qed.
