(** Facts about the remaining buffer operations. *)
From Coq Require Import ZArith List Bool Lia.
Require Import Verif.Spec Verif.Monad Verif.Base Verif.Wp Verif.ModelLimb Verif.LimbFacts Verif.LimbFacts2
  Verif.ModelBuf Verif.SpecBuf Verif.BufFacts Verif.BufFacts2.
Import ListNotations.
Open Scope Z_scope.

Lemma testbit_b2z : forall v n, 0 <= n -> (v / 2 ^ n) mod 2 = b2z (Z.testbit v n).
Proof. intros. rewrite Z.testbit_spec' by lia. destruct (Z.testbit v n); reflexivity. Qed.

Section Facts.
Context {c : cfg}.

Lemma nlimbs_usz : forall b, mp_ok b -> nlimbs b * W < 2 ^ UW /\ nlimbs b < 2 ^ UW.
Proof.
  intros b [_ Hs]. pose proof (nlimbs_spec b). pose proof UW_gt. unfold W.
  destruct LB_cases as [E|E]; rewrite E in *; lia.
Qed.

(** ** High limb masks *)
Lemma lim_pow2 : forall b i, 0 <= i < nlimbs b -> lim b i = 2 ^ (8 * Z.min LB (mp_len b - i * LB)).
Proof.
  intros. unfold lim. apply pow256. pf (nlimbs_lt b i). pose proof LB_pos. lia.
Qed.
Lemma wp_partial_high_mask : forall b (Q : Z -> Prop), 0 < nlimbs b -> Q (lim b (nlimbs b - 1) - 1) ->
  wp (partial_high_mask b) Q.
Proof.
  intros b Q Hn HQ. unfold partial_high_mask. pose proof LB_pos as HLB. pose proof (nlimbs_spec b) as NS.
  destruct (supports_unaligned b) eqn:U.
  - destruct (Z.eqb_spec (mp_len b) 0) as [E|E]; [exfalso; destruct LB_cases as [F|F]; rewrite F in *; lia|]. cbn [negb].
    assert (M : (mp_len b - 1) mod LB + 1 = Z.min LB (mp_len b - (nlimbs b - 1) * LB)).
    { rewrite Z.min_r by lia. rewrite (mod_eq_of _ _ (nlimbs b - 1) (mp_len b - 1 - (nlimbs b - 1) * LB)); lia. }
    rewrite M. apply wp_lsb_mask; [unfold W; lia|]. rewrite <- lim_pow2 by lia. auto.
  - destruct b as [l|l|l]; try discriminate. apply wp_ret. rewrite lnot_0. rewrite nlimbs_NE in *. rewrite lim_NE in HQ by lia. auto.
Qed.
Lemma wp_partial_high_mask_any : forall b (Q : Z -> Prop), (forall m, Q m) -> wp (partial_high_mask b) Q.
Proof.
  intros b Q HQ. unfold partial_high_mask. pose proof LB_pos. destruct (supports_unaligned b).
  - pose proof (Z.mod_pos_bound (mp_len b - 1) LB).
    destruct (negb (mp_len b =? 0)); apply wp_lsb_mask; auto; unfold W; lia.
  - apply wp_ret. auto.
Qed.
Lemma partial_high_shift_eq : forall b, partial_high_shift b = 8 * (mp_len b mod LB).
Proof.
  intros. unfold partial_high_shift. destruct (supports_unaligned b) eqn:U.
  - destruct (Z.eqb_spec (mp_len b mod LB) 0) as [E|E]; lia.
  - destruct b; try discriminate. cbn [mp_len]. pose proof LB_pos. rewrite Z.mod_mul by lia. auto.
Qed.
(** [lim] in terms of the shift. *)
Lemma lim_last_shift : forall b, 0 < nlimbs b ->
  (partial_high_shift b = 0 /\ lim b (nlimbs b - 1) = B) \/
  (0 < partial_high_shift b < W /\ lim b (nlimbs b - 1) = 2 ^ partial_high_shift b).
Proof.
  intros. rewrite partial_high_shift_eq. pose proof LB_pos. pose proof (nlimbs_spec b) as NS. pose proof B_256'.
  pose proof (Z.mod_pos_bound (mp_len b) LB).
  destruct (Z.eq_dec (mp_len b - (nlimbs b - 1) * LB) LB) as [E|E].
  - left. rewrite (mod_eq_of _ _ (nlimbs b) 0) by lia. split; [lia|]. unfold lim. rewrite E, Z.min_id. auto.
  - right. rewrite (mod_eq_of _ _ (nlimbs b - 1) (mp_len b - (nlimbs b - 1) * LB)) by lia.
    split; [unfold W; lia|]. rewrite lim_pow2 by lia. rewrite Z.min_r by lia. auto.
Qed.

(** ** Bits *)
Lemma vtestbit : forall v pos, 0 <= pos -> Z.testbit (vlimb v (pos / W)) (pos mod W) = Z.testbit v pos.
Proof.
  intros. pose proof W_pos. pf (Z.div_mod pos W). pf (Z.mod_pos_bound pos W).
  assert (0 <= pos / W) by (apply Z.div_pos; lia).
  unfold vlimb. rewrite B_eq at 2. rewrite Z.mod_pow2_bits_low by lia.
  rewrite Bpow2 by lia. rewrite Z.div_pow2_bits; [|apply mul_nn; lia|lia]. f_equal. lia.
Qed.

Lemma wp_test_bit : forall b pos (Q : Z -> Prop), mp_ok b -> 0 <= pos -> Q (chc (Z.testbit (mpval b) pos)) ->
  wp (test_bit b pos) Q.
Proof.
  intros b pos Q Hok Hp HQ. unfold test_bit. pose proof W_pos.
  pf (Z.mod_pos_bound pos W).
  assert (0 <= pos / W) by (apply Z.div_pos; lia).
  apply wp_mif; intros E.
  - apply Z.leb_le in E. apply (wp_lc_new false); [reflexivity|].
    rewrite <- vtestbit in HQ by lia. rewrite <- limb_vlimb, limb_out, Z.testbit_0_l in HQ by auto. auto.
  - apply Z.leb_gt in E. apply wp_bind, wp_load; auto. apply wp_bind, wp_lshr; [lia|].
    change 1 with (Z.ones 1) at 1. rewrite Z.land_ones by lia. change (2 ^ 1) with 2. rewrite testbit_b2z by lia.
    rewrite limb_vlimb, vtestbit by lia. eapply wp_lc_new; eauto.
Qed.

(** Bits of a value with limb [i] replaced. *)
Lemma store_testbit : forall b b' i x j, mp_ok b -> 0 <= i -> isl x -> store_post b i x b' -> 0 <= j ->
  Z.testbit (mpval b') j = if j / W =? i then Z.testbit x (j mod W) else Z.testbit (mpval b) j.
Proof.
  intros b b' i x j Hok Hi Hx Hp Hj. pose proof W_pos.
  assert (0 <= j / W) by (apply Z.div_pos; lia).
  rewrite <- (vtestbit (mpval b')), <- (vtestbit (mpval b)) by lia. rewrite <- !limb_vlimb.
  destruct (Z.eqb_spec (j / W) i) as [E|E].
  - rewrite E, (store_limb b b' i x); auto.
  - rewrite (store_limb_other b b' i (j / W) x); auto.
Qed.

Lemma pow2_lt_lim : forall b pos, 0 <= pos < 8 * mp_len b -> pos / W < nlimbs b /\ 2 ^ (pos mod W) < lim b (pos / W).
Proof.
  intros b pos Hp. pose proof W_pos as HW. pf (Z.div_mod pos W) as DM. pf (Z.mod_pos_bound pos W) as MB.
  assert (D0 : 0 <= pos / W) by (apply Z.div_pos; lia). pose proof LB_pos.
  assert (L : pos / W * LB < mp_len b) by (unfold W in *; lia).
  assert (N : pos / W < nlimbs b) by (apply nlimbs_lt; auto). split; auto.
  rewrite lim_pow2 by lia. apply Z.pow_lt_mono_r; try lia. unfold W in *. lia.
Qed.

Lemma testbit_1shl : forall p j, 0 <= p -> Z.testbit (2 ^ p) j = (j =? p).
Proof. intros. rewrite Z.pow2_bits_eqb by lia. apply Z.eqb_sym. Qed.

Lemma wp_set_bit_to : forall b pos v (Q : mp -> Prop), mp_ok b -> 0 <= pos < 8 * mp_len b ->
  (forall b', mp_ok b' -> same_shape b b' ->
     (forall j, 0 <= j -> Z.testbit (mpval b') j = if j =? pos then v else Z.testbit (mpval b) j) -> Q b') ->
  wp (set_bit_to b pos v) Q.
Proof.
  intros b pos v Q Hok Hp HQ. unfold set_bit_to.
  pose proof W_pos as HW. pf (Z.div_mod pos W) as DM. pf (Z.mod_pos_bound pos W) as MB.
  assert (D0 : 0 <= pos / W) by (apply Z.div_pos; lia).
  destruct (pow2_lt_lim b pos Hp) as [N P2].
  apply wp_bind, wp_dassert; [apply Z.ltb_lt; auto|].
  apply wp_bind, wp_load; auto. apply wp_bind, wp_lshl; [lia|].
  pf (pow2_lt_B (pos mod W)) as PB.
  rewrite Z.mul_1_l, Z.mod_small by lia.
  apply wp_bind, (wp_lc_new v); [reflexivity|]. rewrite lc_select_chc by (unfold isl; lia).
  set (x := Z.lor _ _).
  assert (BX : forall j, 0 <= j < W -> Z.testbit x j = if j =? pos mod W then v else Z.testbit (limb b (pos / W)) j).
  { intros j Hj. unfold x. rewrite Z.lor_spec, Z.land_spec. unfold lnot. rewrite Z.lxor_spec, Z.ones_spec_low by lia.
    rewrite testbit_1shl by lia. destruct (Z.eqb_spec j (pos mod W)) as [E|E]; subst;
    destruct v; rewrite ?testbit_1shl, ?Z.testbit_0_l by lia.
    - rewrite Z.eqb_refl. apply orb_true_r.
    - cbn [xorb]. rewrite andb_false_r. reflexivity.
    - destruct (Z.eqb_spec j (pos mod W)); [lia|]. cbn [xorb]. rewrite andb_true_r, orb_false_r. auto.
    - cbn [xorb]. rewrite andb_true_r, orb_false_r. auto. }
  assert (LX : 0 <= x < lim b (pos / W)).
  { pf (limb_lim b (pos / W) Hok) as LL. rewrite lim_pow2 in * by lia.
    set (m := 8 * Z.min LB (mp_len b - pos / W * LB)) in *. pose proof LB_pos.
    assert (0 <= m). { pf (nlimbs_lt b (pos / W)). unfold m; lia. }
    unfold x. apply lor_bound; auto.
    - apply land_bound_l; auto. apply isl_lnot. unfold isl. lia.
    - destruct v; [|split; [lia|apply pow2_gt0; auto]]. lia. }
  pf (lim_pos b (pos / W)).
  assert (isl x) by (unfold isl; lia).
  apply wp_store; auto. intros b' Hb'.
  apply HQ; [apply Hb'|apply Hb'|]. intros j Hj. rewrite (store_testbit b b' (pos / W) x j) by auto.
  pf (Z.div_mod j W). pf (Z.mod_pos_bound j W).
  destruct (Z.eqb_spec (j / W) (pos / W)) as [E|E].
  - rewrite BX by lia. destruct (Z.eqb_spec (j mod W) (pos mod W)), (Z.eqb_spec j pos); try lia; auto.
    rewrite limb_vlimb. rewrite <- E. apply vtestbit. auto.
  - destruct (Z.eqb_spec j pos); auto. subst. congruence.
Qed.

(** ** Native integers *)
Lemma wp_len_compat : forall b len (Q : bool -> Prop), mp_ok b -> 0 <= len ->
  (forall r : bool, (r = true -> mpval b < 256 ^ len /\ mp_len b < len + LB /\ (supports_unaligned b = true -> mp_len b <= len)) ->
     (mp_len b <= len -> r = true) -> 
     (supports_unaligned b = false -> mp_len b < len + LB -> mpval b < 256 ^ len -> r = true) -> Q r) ->
  wp (len_is_compatible_with b len) Q.
Proof.
  intros b len Q Hok Hl HQ. unfold len_is_compatible_with. pose proof LB_pos as HLB.
  pose proof (mpval_bound b Hok) as VB. pose proof (nlimbs_spec b) as NS.
  apply wp_mif; intros E.
  - apply Z.leb_le in E. apply wp_ret, HQ; auto. intros _. split; [|lia].
    eapply Z.lt_le_trans; [apply VB|]. apply Z.pow_le_mono_r; lia.
  - apply Z.leb_gt in E. apply wp_mif; intros E2.
    + apply andb_true_iff in E2. destruct E2 as [U E2]. apply negb_true_iff in U. apply Z.ltb_lt in E2.
      assert (N : mp_len b = nlimbs b * LB).
      { destruct b; try discriminate. rewrite nlimbs_NE. reflexivity. }
      assert (0 < nlimbs b) by (destruct LB_cases as [F|F]; rewrite F in *; lia).
      apply wp_bind, wp_usub; [lia|]. apply wp_bind, wp_load; auto; [lia|].
      apply wp_bind, wp_lshr; [unfold W; lia|]. apply wp_ret.
      set (k := LB - (mp_len b - len)). set (n := nlimbs b) in *.
      assert (BN : 256 ^ len = B ^ (n - 1) * 256 ^ k).
      { assert (0 <= (n - 1) * LB) by (apply mul_nn; lia).
        rewrite Bpow256, <- Z.pow_add_r by (unfold k; lia). f_equal. unfold k. lia. }
      pf (Bpow_pos (n - 1)) as BP. pose proof (p256_pos k ltac:(unfold k; lia)) as KP.
      assert (EQ : (limb b (n - 1) / 2 ^ (8 * k) =? 0) = (mpval b <? 256 ^ len)).
      { rewrite <- pow256 by (unfold k; lia). rewrite BN.
        assert (LE : limb b (n - 1) = mpval b / B ^ (n - 1)).
        { unfold limb. apply Z.mod_small. apply div_pos_bound; auto. rewrite Z.mul_comm, <- Bpow_S by lia.
          replace (n - 1 + 1) with n by lia. apply mpval_bound_B. auto. }
        rewrite LE. rewrite <- div_mul_div by lia.
        assert (0 < B ^ (n - 1) * 256 ^ k) by (apply Z.mul_pos_pos; lia).
        destruct (Z.ltb_spec (mpval b) (B ^ (n - 1) * 256 ^ k)).
        - apply Z.eqb_eq. apply Z.div_small. lia.
        - apply Z.eqb_neq. intros D. apply Z.div_small_iff in D; lia. }
      rewrite EQ. apply HQ.
      * intros R. apply Z.ltb_lt in R. split; [auto|split; [lia|congruence]].
      * lia.
      * intros _ _ R. apply Z.ltb_lt. auto.
    + apply wp_ret, HQ; try discriminate; try lia. intros U L _. rewrite U in E2. cbn [negb andb] in E2.
      apply Z.ltb_ge in E2. lia.
Qed.

(** ** Copying *)
Lemma limb_of_small : forall v b, 0 <= v < 256 ^ mp_len b -> 0 < nlimbs b -> vlimb v (nlimbs b - 1) < lim b (nlimbs b - 1).
Proof.
  intros v b Hv Hn. rewrite <- lim_total in Hv by auto. pf (Bpow_pos (nlimbs b - 1)).
  pf (lim_pos b (nlimbs b - 1)).
  pose proof (div_pos_bound v (B ^ (nlimbs b - 1)) (lim b (nlimbs b - 1)) F Hv).
  unfold vlimb. rewrite Z.mod_small; lia.
Qed.

Lemma land_lnot_lim : forall b x, 0 < nlimbs b -> 0 <= x < lim b (nlimbs b - 1) ->
  Z.land x (lnot (lim b (nlimbs b - 1) - 1)) = 0.
Proof.
  intros b x Hn Hx. pose proof LB_pos. pf (lim_pos b (nlimbs b - 1)).
  pose proof (nlimbs_lt b (nlimbs b - 1)).
  rewrite lim_pow2 in * by lia. rewrite land_lnot_mask.
  - rewrite Z.mod_small by lia. lia.
  - unfold isl. lia.
  - unfold W. lia.
Qed.

Lemma wp_copy_from : forall dst src (Q : mp -> Prop), mp_ok dst -> mp_ok src -> mpval src < 256 ^ mp_len dst ->
  (forall d', mp_ok d' -> same_shape dst d' -> mpval d' = mpval src -> Q d') -> wp (copy_from dst src) Q.
Proof.
  intros dst src Q Hd Hs Hf HQ. unfold copy_from.
  pose proof (nlimbs_spec dst) as ND. pose proof (nlimbs_spec src) as NS. pose proof LB_pos as HLB.
  pose proof (mpval_bound src Hs) as VS. pose proof (mp_len_nonneg dst) as LD.
  apply wp_bind, wp_dassert_m.
  { apply wp_bind, wp_find_last_set_byte; auto. apply wp_ret. apply Z.leb_le.
    apply nbytes_le_iff; lia. }
  apply wp_mif; intros E1.
  { apply Z.eqb_eq in E1. apply wp_clear_above; auto; [lia|]. intros d' (O & S & V). apply HQ; auto.
    rewrite V, Z.pow_0_r, Z.mod_1_r. rewrite E1 in NS. pose proof (mp_len_nonneg src). replace (mp_len src) with 0 in VS by lia.
    rewrite Z.pow_0_r in VS. lia. }
  apply Z.eqb_neq in E1. apply wp_mif; intros E2.
  { apply Z.eqb_eq in E2. apply wp_ret, HQ; auto. apply shape_refl.
    rewrite E2 in ND. pose proof (mpval_bound dst Hd) as VD. replace (mp_len dst) with 0 in * by lia.
    rewrite Z.pow_0_r in *. lia. }
  apply Z.eqb_neq in E2. set (n := Z.min (nlimbs src) (nlimbs dst)).
  apply wp_bind.
  eapply wp_for with (I := fun i d => mp_ok d /\ same_shape dst d /\
     mpval d = mpval src mod B ^ i + B ^ i * (mpval dst / B ^ i)); [lia| | |].
  - split; [auto|split; [apply shape_refl|]]. rewrite vmod_0, vdiv_0, Z.pow_0_r. lia.
  - intros i d Hi (Od & Sd & Vd). apply wp_bind, wp_load_full; auto; [lia|apply nlimbs_full; lia|].
    apply wp_store_full; auto; [lia| |apply limb_isl|].
    { rewrite (shape_len dst d) by auto. apply nlimbs_full. lia. }
    intros d' Hp. split; [apply Hp|split; [eapply shape_trans; [eauto|apply Hp]|]].
    destruct (up_step d d' (mpval dst) (mpval src mod B ^ i) i (limb src i)) as [E _];
      auto; [lia|apply vmod_bound; lia|apply limb_isl|]. rewrite E, limb_vlimb, vmod_S by lia. auto.
  - intros d (Od & Sd & Vd). apply wp_bind, wp_load; auto; [lia|].
    assert (LIM : 0 <= limb src (n - 1) < lim dst (n - 1)).
    { split; [apply limb_isl|]. destruct (Z_lt_le_dec (nlimbs src) (nlimbs dst)).
      - rewrite lim_inner by lia. apply limb_isl.
      - replace n with (nlimbs dst) by lia. apply limb_of_small; lia. }
    apply wp_bind, wp_dassert_m.
    { destruct (Z.ltb_spec (nlimbs src) (nlimbs dst)); [apply wp_ret; auto|].
      pose proof (shape_nlimbs dst d Sd) as SN.
      apply wp_bind, wp_partial_high_mask; [lia|]. apply wp_ret. apply Z.eqb_eq.
      apply land_lnot_lim; [lia|]. rewrite (lim_shape dst d) by auto. replace (nlimbs d) with n by lia. auto. }
    apply wp_bind, wp_store; auto.
    { rewrite (shape_nlimbs dst d) by auto. lia. }
    { rewrite (lim_shape dst d) by auto. auto. }
    intros d1 Hp. pose proof (mp_len_nonneg src) as LS. apply wp_clear_above; [apply Hp|lia|]. intros d2 (O2 & S2 & V2). apply HQ; auto.
    { eapply shape_trans; [apply Sd|]. eapply shape_trans; [apply Hp|auto]. }
    destruct (up_step d d1 (mpval dst) (mpval src mod B ^ (n - 1)) (n - 1) (limb src (n - 1))) as [E _];
      auto; [lia|apply vmod_bound; lia|apply limb_isl|].
    rewrite limb_vlimb, <- vmod_S in E by lia. replace (n - 1 + 1) with n in E by lia.
    assert (VN : mpval src mod B ^ n = mpval src).
    { destruct (Z_lt_le_dec (nlimbs dst) (nlimbs src)).
      - apply Z.mod_small. split; [lia|]. eapply Z.lt_le_trans; [apply Hf|]. rewrite Bpow256 by lia.
        apply Z.pow_le_mono_r; [lia|]. replace n with (nlimbs dst) by lia. lia.
      - apply vmod_full; auto. lia. }
    rewrite VN in E. rewrite V2, E.
    destruct (Z_lt_le_dec (nlimbs dst) (nlimbs src)) as [C|C].
    + (* dst is shorter: nothing above *)
      replace (mpval dst / B ^ n) with 0.
      * rewrite Z.mul_0_r, Z.add_0_r. apply Z.mod_small. lia.
      * symmetry. apply vdiv_full; auto. lia.
    + replace n with (nlimbs src) by lia.
      replace (B ^ nlimbs src) with (256 ^ (nlimbs src * LB - mp_len src) * 256 ^ mp_len src).
      * rewrite (Z.mul_comm (256 ^ (nlimbs src * LB - mp_len src))), <- Z.mul_assoc.
        rewrite (Z.mul_comm (256 ^ mp_len src)). rewrite Z.mod_add by (pose proof (p256_pos (mp_len src)); lia).
        apply Z.mod_small. lia.
      * rewrite <- Z.pow_add_r by lia. rewrite Bpow256 by lia. f_equal. lia.
Qed.

(** clear_bytes_above_cond does nothing past the end or if the condition is off. *)
Lemma wp_clear_cond_off : forall b n z (Q : mp -> Prop), mp_ok b -> 0 <= n -> (z = false \/ mp_len b <= n) ->
  Q b -> wp (clear_bytes_above_cond b n (chc z)) Q.
Proof.
  intros b n z Q Hok Hn Hg HQ. unfold clear_bytes_above_cond. apply wp_mif; intros E; [apply wp_ret; auto|].
  apply Z.leb_gt in E. assert (z = false) by (destruct Hg; [auto|lia]). subst z.
  pose proof LB_pos as HLB. pose proof B_pos. assert (0 <= n / LB) by (apply Z.div_pos; lia).
  pose proof (Z.div_mod n LB). pose proof (Z.mod_pos_bound n LB).
  assert (K : n / LB < nlimbs b). { apply nlimbs_lt; lia. }
  rewrite lc_select_chc by (rewrite ?lnot_0; try apply isl_0; unfold isl; lia). cbv iota.
  apply wp_bind, wp_load; auto. apply wp_bind, wp_lsb_mask; [unfold W; lia|].
  assert (ID : forall v, isl v -> Z.land v (B - 1) = v).
  { intros. rewrite <- ones_W. rewrite Z.land_ones by (pose proof W_pos; lia). apply Z.mod_small. auto. }
  assert (FM : Z.lor (lnot (2 ^ (8 * (n mod LB)) - 1)) (lnot 0) = B - 1).
  { rewrite lnot_0. rewrite <- ones_W. pose proof W_pos. apply Z.bits_inj'. intros i Hi. rewrite Z.lor_spec.
    pose proof (pow2_lt_B (8 * (n mod LB))) as PB.
    destruct (Z_lt_le_dec i W).
    - rewrite Z.ones_spec_low by lia. apply orb_true_r.
    - rewrite Z.ones_spec_high by lia. rewrite orb_false_r.
      apply (testbit_above _ W); [|lia]. rewrite <- B_eq. apply isl_lnot. unfold isl, W in *. lia. }
  rewrite FM, ID by apply limb_isl.
  apply wp_bind, wp_store; auto. { apply limb_lim; auto. }
  intros b1 (O1 & S1 & V1). replace (limb b (n / LB) - limb b (n / LB)) with 0 in V1 by lia.
  assert (b1 = b). { symmetry. apply mp_inj; auto. lia. } subst b1.
  eapply wp_for with (I := fun _ b' => b' = b).
  - lia.
  - auto.
  - intros i b' Hi ->. apply wp_bind, wp_load; auto; [lia|]. rewrite lnot_0, ID by apply limb_isl.
    apply wp_store; auto; [lia|apply limb_lim; auto; lia|].
    intros b1 (O2 & S2 & V2). symmetry. apply mp_inj; auto. lia.
  - intros b' ->. auto.
Qed.

Lemma wp_copy_from_cond : forall dst src z (Q : mp -> Prop), mp_ok dst -> mp_ok src -> mpval src < 256 ^ mp_len dst ->
  (z = false \/ mp_len dst <= mp_len src) ->
  (forall d', mp_ok d' -> same_shape dst d' -> mpval d' = (if z then mpval src else mpval dst) -> Q d') ->
  wp (copy_from_cond dst src (chc z)) Q.
Proof.
  intros dst src z Q Hd Hs Hf Hg HQ. unfold copy_from_cond.
  pose proof (nlimbs_spec dst) as ND. pose proof (nlimbs_spec src) as NS. pose proof LB_pos as HLB.
  pose proof (mpval_bound src Hs) as VS. pose proof (mp_len_nonneg dst) as LD. pose proof (mp_len_nonneg src) as LS.
  pose proof (mpval_bound dst Hd) as VD.
  apply wp_bind, wp_dassert_m.
  { apply wp_bind, wp_find_last_set_byte; auto. apply wp_ret. apply Z.leb_le.
    apply nbytes_le_iff; lia. }
  apply wp_mif; intros E1.
  { apply Z.eqb_eq in E1. rewrite E1 in NS. apply wp_clear_cond_off; auto; [lia|destruct Hg; [left; auto|right; lia]|]. apply HQ; auto. apply shape_refl.
    destruct z; auto. destruct Hg; [discriminate|].
    replace (mp_len dst) with 0 in * by lia. rewrite Z.pow_0_r in *. lia. }
  apply Z.eqb_neq in E1. apply wp_mif; intros E2.
  { apply Z.eqb_eq in E2. apply wp_ret, HQ; auto. apply shape_refl.
    rewrite E2 in ND. replace (mp_len dst) with 0 in * by lia.
    rewrite Z.pow_0_r in *. destruct z; lia. }
  apply Z.eqb_neq in E2. set (n := Z.min (nlimbs src) (nlimbs dst)).
  set (V := if z then mpval src else mpval dst).
  assert (SEL : forall i, lc_select (chc z) (vlimb (mpval dst) i) (limb src i) = vlimb V i).
  { intros. rewrite lc_select_chc by (apply vlimb_isl || apply limb_isl). unfold V. destruct z; reflexivity. }
  apply wp_bind.
  eapply wp_for with (I := fun i d => mp_ok d /\ same_shape dst d /\
     mpval d = V mod B ^ i + B ^ i * (mpval dst / B ^ i)); [lia| | |].
  - split; [auto|split; [apply shape_refl|]]. rewrite vmod_0, vdiv_0, Z.pow_0_r. lia.
  - intros i d Hi (Od & Sd & Vd).
    assert (0 <= V mod B ^ i < B ^ i) by (apply vmod_bound; lia).
    apply wp_bind, wp_load_full; auto; [lia|rewrite (shape_len dst d) by auto; apply nlimbs_full; lia|].
    rewrite (up_limb d (mpval dst) (V mod B ^ i)) by (auto; lia).
    apply wp_bind, wp_load_full; auto; [lia|apply nlimbs_full; lia|]. rewrite SEL.
    apply wp_store_full; auto; [lia| |apply vlimb_isl|].
    { rewrite (shape_len dst d) by auto. apply nlimbs_full. lia. }
    intros d' Hp. split; [apply Hp|split; [eapply shape_trans; [eauto|apply Hp]|]].
    destruct (up_step d d' (mpval dst) (V mod B ^ i) i (vlimb V i)) as [E _];
      auto; [lia|apply vlimb_isl|]. rewrite E, vmod_S by lia. auto.
  - intros d (Od & Sd & Vd).
    assert (0 <= V mod B ^ (n - 1) < B ^ (n - 1)) by (apply vmod_bound; lia).
    apply wp_bind, wp_load; auto; [rewrite (shape_nlimbs dst d) by auto; lia|].
    rewrite (up_limb d (mpval dst) (V mod B ^ (n - 1))) by (auto; lia).
    apply wp_bind, wp_load; auto; [lia|]. rewrite SEL.
    assert (LIM : 0 <= vlimb V (n - 1) < lim dst (n - 1)).
    { split; [apply vlimb_isl|]. destruct (Z_lt_le_dec (nlimbs src) (nlimbs dst)).
      - rewrite lim_inner by lia. apply vlimb_isl.
      - replace n with (nlimbs dst) by lia. apply limb_of_small; [|lia]. unfold V; destruct z; lia. }
    apply wp_bind, wp_dassert_m.
    { destruct (Z.ltb_spec (nlimbs src) (nlimbs dst)); [apply wp_ret; auto|].
      pose proof (shape_nlimbs dst d Sd) as SN.
      apply wp_bind, wp_partial_high_mask; [lia|]. apply wp_ret. apply Z.eqb_eq.
      apply land_lnot_lim; [lia|]. rewrite (lim_shape dst d) by auto. replace (nlimbs d) with n by lia. auto. }
    apply wp_bind, wp_store; auto.
    { rewrite (shape_nlimbs dst d) by auto. lia. }
    { rewrite (lim_shape dst d) by auto. auto. }
    intros d1 Hp. apply wp_clear_cond_off; [apply Hp|lia| |].
    { rewrite (shape_len d d1) by apply Hp. rewrite (shape_len dst d) by auto. auto. }
    apply HQ; [apply Hp| |].
    { eapply shape_trans; [apply Sd|apply Hp]. }
    destruct (up_step d d1 (mpval dst) (V mod B ^ (n - 1)) (n - 1) (vlimb V (n - 1))) as [E _];
      auto; [lia|apply vlimb_isl|].
    rewrite <- vmod_S in E by lia. replace (n - 1 + 1) with n in E by lia. rewrite E. fold V.
    destruct (Z_lt_le_dec (nlimbs src) (nlimbs dst)) as [C|C].
    + assert (z = false). { destruct Hg; auto. exfalso. pose proof (mul_LB_lt _ _ C). lia. }
      subst z. unfold V. symmetry. apply vdivmod. lia.
    + replace n with (nlimbs dst) by lia. rewrite vdiv_full by (auto; lia). rewrite Z.mul_0_r, Z.add_0_r.
      apply Z.mod_small. rewrite Bpow256 by lia. assert (0 <= V < 256 ^ mp_len dst) by (unfold V; destruct z; lia).
      split; [lia|]. eapply Z.lt_le_trans; [apply H0|]. apply Z.pow_le_mono_r; lia.
Qed.

(** ** Clearing bits *)
Lemma begin_split : forall n, 0 <= n -> 2 ^ n = B ^ (n / W) * 2 ^ (n mod W) /\ 0 <= n / W /\ 0 <= n mod W < W /\ n = W * (n / W) + n mod W.
Proof.
  intros. pose proof W_pos. pf (Z.div_mod n W). pf (Z.mod_pos_bound n W).
  assert (0 <= n / W) by (apply Z.div_pos; lia). split; [|auto].
  rewrite Bpow2 by lia. rewrite <- Z.pow_add_r; [f_equal; lia|apply mul_nn; lia|lia].
Qed.
(** Low bits of a limb, in terms of the integer. *)
Lemma mod_pow2_limb : forall v k r, 0 <= k -> 0 <= r <= W ->
  v mod (B ^ k * 2 ^ r) = v mod B ^ k + B ^ k * (vlimb v k mod 2 ^ r).
Proof.
  intros. pose proof (Bpow_pos k H). pf (pow2_gt0 r).
  rewrite mod_mul_split by lia. f_equal. f_equal. unfold vlimb. rewrite B_eq. rewrite mod_mod_pow by lia. auto.
Qed.

Lemma mod_lim : forall b i m, mp_ok b -> 0 <= i < nlimbs b -> 0 <= m -> 0 <= Z.land (limb b i) m < lim b i.
Proof.
  intros. pose proof (limb_lim b i H H0). split; [apply Z.land_nonneg; lia|].
  pose proof (land_le_l (limb b i) m). lia.
Qed.

Notation same_upto := becomes (only parsing).

Lemma wp_ct_clear_bits_above : forall b n (Q : mp -> Prop), mp_ok b -> 0 <= n < 2 ^ UW ->
  (forall b', same_upto b b' (mpval b mod 2 ^ n) -> Q b') -> wp (ct_clear_bits_above_mp b n) Q.
Proof.
  intros b n Q Hok Hn HQ. unfold ct_clear_bits_above_mp.
  destruct (begin_split n) as (EP & D0 & MB & DM); [lia|]. set (k := n / W) in *. set (r := n mod W) in *.
  pose proof W_pos as HW. pose proof B_pos as HB. pose proof (nlimbs_nonneg b) as HN. destruct (nlimbs_usz b Hok) as [_ HU].
  pf (pow2_lt_B r) as PB.
  apply wp_bind, wp_lsb_mask; [lia|].
  assert (V0 : 0 <= mpval b) by (apply mpval_nonneg; auto).
  apply wp_bind.
  eapply wp_for with (I := fun i '(b', m) => mp_ok b' /\ same_shape b b' /\ m = (if i <=? k then B - 1 else 0) /\
     mpval b' = (mpval b mod 2 ^ n) mod B ^ i + B ^ i * (mpval b / B ^ i)); [lia| | |].
  - split; [auto|split; [apply shape_refl|]]. rewrite vmod_0, vdiv_0, Z.pow_0_r, lnot_0.
    split; [|lia]. destruct (Z.leb_spec 0 k); auto; lia.
  - intros i [b' m] Hi (O & S & -> & V). apply wp_bind, wp_eq_usize; [unfold isu; lia|unfold isu; nia|].
    pf (vmod_bound (mpval b mod 2 ^ n) i) as LB0.
    rewrite !lc_select_chc by (unfold isl; destruct (i <=? k); lia).
    apply wp_bind, wp_load; auto; [rewrite (shape_nlimbs b b') by auto; lia|].
    rewrite (up_limb b' (mpval b) _ i ltac:(lia) LB0 V).
    set (mask := if i =? k then 2 ^ r - 1 else if i <=? k then B - 1 else 0).
    assert (MR : 0 <= mask < B) by (unfold mask; destruct (i =? k), (i <=? k); lia).
    assert (X : Z.land (vlimb (mpval b) i) mask = vlimb (mpval b mod 2 ^ n) i).
    { unfold mask. rewrite EP. destruct (Z.eqb_spec i k) as [->|Ne].
      - rewrite land_mask by lia. unfold vlimb at 2. rewrite mod_pow2_limb by lia.
        rewrite lohi_div by (apply vmod_bound; lia). rewrite (Z.mod_small _ B); auto.
        pose proof (Z.mod_pos_bound (vlimb (mpval b) k) (2 ^ r)). lia.
      - destruct (Z.leb_spec i k).
        + rewrite <- ones_W, Z.land_ones by lia. rewrite Z.mod_small by apply vlimb_isl.
          rewrite <- (limb_of_mod (_ mod _) i k), <- (limb_of_mod (mpval b) i k) by lia.
          f_equal. rewrite mod_mul_le; auto; [apply Bpow_pos; lia|lia].
        + rewrite Z.land_0_r. unfold vlimb. rewrite Z.div_small; [symmetry; apply Z.mod_0_l; lia|].
          rewrite <- EP. pose proof (Z.mod_pos_bound (mpval b) (2 ^ n)) as MPB. pf (pow2_gt0 n).
          split; [lia|]. eapply Z.lt_le_trans; [apply MPB; lia|].
          rewrite Bpow2 by lia. apply Z.pow_le_mono_r; [lia|]. nia. }
    rewrite X. apply wp_bind, wp_store; auto.
    { rewrite (shape_nlimbs b b') by auto; lia. }
    { rewrite (lim_shape b b') by auto. rewrite <- X. apply mod_lim; auto; lia. }
    intros b2 Hp. apply wp_ret. split; [apply Hp|split; [eapply shape_trans; [eauto|apply Hp]|]].
    destruct (up_step b' b2 (mpval b) ((mpval b mod 2 ^ n) mod B ^ i) i (vlimb (mpval b mod 2 ^ n) i)) as [E _];
      auto; [lia|apply vlimb_isl|]. split.
    + destruct (Z.eqb_spec i k), (Z.leb_spec i k), (Z.leb_spec (i + 1) k); auto; lia.
    + rewrite E, <- vmod_S by lia. auto.
  - intros [b' m] (O & S & -> & V). apply wp_ret, HQ. split; [auto|split; [auto|]]. rewrite V.
    rewrite vdiv_full by (auto; lia). rewrite Z.mul_0_r, Z.add_0_r. apply Z.mod_small.
    pose proof (mpval_bound_B b Hok). pf (pow2_gt0 n). pose proof (Z.mod_le (mpval b) (2 ^ n)).
    pose proof (Z.mod_pos_bound (mpval b) (2 ^ n)). lia.
Qed.

Lemma wp_clear_bits_above : forall b n (Q : mp -> Prop), mp_ok b -> 0 <= n ->
  (forall b', same_upto b b' (mpval b mod 2 ^ n) -> Q b') -> wp (clear_bits_above_mp b n) Q.
Proof.
  intros b n Q Hok Hn HQ. unfold clear_bits_above_mp.
  destruct (begin_split n) as (EP & D0 & MB & DM); [lia|]. set (k := n / W) in *. set (r := n mod W) in *.
  pose proof W_pos as HW. pose proof B_pos as HB. pose proof (nlimbs_nonneg b) as HN.
  pf (pow2_lt_B r) as PB. pose proof (Bpow_pos k D0) as BK.
  apply wp_mif; intros E.
  - apply Z.leb_le in E. apply wp_ret, HQ. split; [auto|split; [apply shape_refl|]]. symmetry. apply Z.mod_small.
    pose proof (mpval_bound_B b Hok) as VB. split; [lia|]. eapply Z.lt_le_trans; [apply VB|].
    rewrite EP. assert (B ^ nlimbs b <= B ^ k) by (apply Z.pow_le_mono_r; lia). nia.
  - apply Z.leb_gt in E. apply wp_bind, wp_lsb_mask; [lia|]. apply wp_bind, wp_load; auto.
    rewrite land_mask by lia. pose proof (Z.mod_pos_bound (limb b k) (2 ^ r)) as XB.
    pose proof (Z.mod_le (limb b k) (2 ^ r)) as XL. pf (limb_lim b k Hok) as LL.
    apply wp_bind, wp_store; auto; [lia|].
    intros b1 Hp. apply wp_clear_above; [apply Hp| |].
    { apply mul_nn; [apply Z.div_pos; lia|pose proof LB_pos; lia]. }
    intros b2 (O2 & S2 & V2). apply HQ. split; [auto|split; [eapply shape_trans; [apply Hp|auto]|]].
    rewrite V2. pose proof LB_pos as HLB. rewrite limb_vlimb in *.
    set (y := vlimb (mpval b) k mod 2 ^ r) in *.
    assert (IY : isl y) by (unfold isl; lia).
    destruct (up_step b b1 (mpval b) (mpval b mod B ^ k) k y) as [E1 R1]; auto.
    { apply vmod_bound; lia. } { apply vdivmod; lia. }
    rewrite EP, mod_pow2_limb by lia. fold y.
    destruct (Z.eq_dec r 0) as [R0|R0].
    + replace ((n + W - 1) / W) with k.
      2:{ symmetry. eapply div_eq_of with (r := W - 1); lia. }
      rewrite <- Bpow256 by lia. rewrite (store_mod b b1 k y D0 Hp).
      replace y with 0; [lia|]. unfold y. rewrite R0, Z.pow_0_r, Z.mod_1_r. auto.
    + replace ((n + W - 1) / W) with (k + 1).
      2:{ symmetry. eapply div_eq_of with (r := r - 1); lia. }
      rewrite <- Bpow256 by lia. rewrite E1. rewrite lohi_mod by auto. lia.
Qed.

Lemma wp_ct_clear_bits_below : forall b n (Q : mp -> Prop), mp_ok b -> 0 <= n < 2 ^ UW ->
  (forall b', same_upto b b' (mpval b - mpval b mod 2 ^ n) -> Q b') -> wp (ct_clear_bits_below_mp b n) Q.
Proof.
  intros b n Q Hok Hn HQ. unfold ct_clear_bits_below_mp.
  destruct (begin_split n) as (EP & D0 & MB & DM); [lia|]. set (k := n / W) in *. set (r := n mod W) in *.
  pose proof W_pos as HW. pose proof B_pos as HB. pose proof (nlimbs_nonneg b) as HN. destruct (nlimbs_usz b Hok) as [_ HU].
  pf (pow2_lt_B r) as PB. pose proof (Bpow_pos k D0) as BK.
  apply wp_bind, wp_lsb_mask; [lia|].
  assert (V0 : 0 <= mpval b) by (apply mpval_nonneg; auto).
  pf (pow2_gt0 n) as PN.
  set (V := mpval b - mpval b mod 2 ^ n) in *.
  assert (VD : forall i, k < i -> V / B ^ i = mpval b / B ^ i).
  { intros i Hi. replace i with (k + (1 + (i - k - 1))) by lia.
    rewrite !Z.pow_add_r, Z.pow_1_r by lia. rewrite !div_mul_div; try (apply Z.mul_pos_pos); try apply Bpow_pos; try lia.
    f_equal. unfold V. rewrite EP, mod_pow2_limb by lia.
    pose proof (vdivmod (mpval b) k D0) as DD. rewrite (vdiv_S (mpval b) k D0) in DD.
    set (x := vlimb (mpval b) k) in *. assert (isl x) by apply vlimb_isl.
    pf (Z.mod_pos_bound x (2 ^ r)). pose proof (Z.mod_le x (2 ^ r)). unfold isl in *.
    replace (mpval b - (mpval b mod B ^ k + B ^ k * (x mod 2 ^ r))) with
      (B ^ k * ((x - x mod 2 ^ r) + B * (mpval b / B ^ (k + 1)))) by lia.
    rewrite (Z.mul_comm (B ^ k)), Z.div_mul by lia. rewrite lohi_div by lia.
    rewrite Bpow_S, (Z.mul_comm B), div_mul_div by lia. auto. }
  assert (VL : forall i, 0 <= i -> vlimb V i = if i <? k then 0 else if i =? k then vlimb (mpval b) i - vlimb (mpval b) i mod 2 ^ r else vlimb (mpval b) i).
  { intros i Hi. destruct (Z.ltb_spec i k); [|destruct (Z.eqb_spec i k)].
    - unfold V. rewrite sub_mod_eq, EP by lia.
      rewrite <- (limb_of_mod _ i k) by lia. rewrite <- Z.mul_assoc, Z.mul_comm, Z.mod_mul by lia.
      unfold vlimb. rewrite Z.div_0_l, Z.mod_0_l; auto; [lia|]. pose proof (Bpow_pos i); lia.
    - subst i. unfold V. rewrite EP, mod_pow2_limb by lia.
      pose proof (vdivmod (mpval b) k D0) as DD. rewrite (vdiv_S (mpval b) k D0) in DD.
      set (x := vlimb (mpval b) k) in *. assert (isl x) by apply vlimb_isl.
      pf (Z.mod_pos_bound x (2 ^ r)). pose proof (Z.mod_le x (2 ^ r)). unfold isl in *.
      replace (mpval b - (mpval b mod B ^ k + B ^ k * (x mod 2 ^ r))) with
        (B ^ k * ((x - x mod 2 ^ r) + B * (mpval b / B ^ (k + 1)))) by lia.
      unfold vlimb. rewrite (Z.mul_comm (B ^ k)), Z.div_mul by lia. apply lohi_mod. lia.
    - unfold vlimb. rewrite VD by lia. auto. }
  apply wp_bind.
  eapply wp_for with (I := fun i '(b', m) => mp_ok b' /\ same_shape b b' /\ m = (if i <=? k then 0 else B - 1) /\
     mpval b' = V mod B ^ i + B ^ i * (mpval b / B ^ i)); [lia| | |].
  - split; [auto|split; [apply shape_refl|]]. rewrite vmod_0, vdiv_0, Z.pow_0_r.
    split; [|lia]. destruct (Z.leb_spec 0 k); auto; lia.
  - intros i [b' m] Hi (O & S & -> & Vb). apply wp_bind, wp_eq_usize; [unfold isu; lia|unfold isu; nia|].
    pf (vmod_bound V i) as LB0.
    assert (isl (lnot (2 ^ r - 1))) by (apply isl_lnot; unfold isl; lia).
    rewrite !lc_select_chc by (try (unfold isl; destruct (i <=? k); lia); rewrite ?lnot_0; auto; unfold isl; lia).
    apply wp_bind, wp_load; auto; [rewrite (shape_nlimbs b b') by auto; lia|].
    rewrite (up_limb b' (mpval b) _ i ltac:(lia) LB0 Vb).
    set (mask := if i =? k then lnot (2 ^ r - 1) else if i <=? k then 0 else B - 1).
    assert (MR : 0 <= mask < B) by (unfold mask, isl in *; destruct (i =? k), (i <=? k); lia).
    assert (X : Z.land (vlimb (mpval b) i) mask = vlimb V i).
    { rewrite VL by lia. unfold mask. destruct (Z.eqb_spec i k) as [->|Ne].
      - rewrite land_lnot_mask; [|apply vlimb_isl|lia]. destruct (Z.ltb_spec k k); lia.
      - destruct (Z.leb_spec i k), (Z.ltb_spec i k); try lia.
        + apply Z.land_0_r.
        + rewrite <- ones_W, Z.land_ones by lia. rewrite Z.mod_small by apply vlimb_isl. auto. }
    rewrite X. apply wp_bind, wp_store; auto.
    { rewrite (shape_nlimbs b b') by auto; lia. }
    { rewrite (lim_shape b b') by auto. rewrite <- X. apply mod_lim; auto; lia. }
    intros b2 Hp. apply wp_ret. split; [apply Hp|split; [eapply shape_trans; [eauto|apply Hp]|]].
    destruct (up_step b' b2 (mpval b) (V mod B ^ i) i (vlimb V i)) as [E _];
      auto; [lia|apply vlimb_isl|]. split.
    + rewrite lnot_0. destruct (Z.eqb_spec i k), (Z.leb_spec i k), (Z.leb_spec (i + 1) k); auto; lia.
    + rewrite E, <- vmod_S by lia. auto.
  - intros [b' m] (O & S & -> & Vb). apply wp_ret, HQ. split; [auto|split; [auto|]]. rewrite Vb.
    rewrite vdiv_full by (auto; lia). rewrite Z.mul_0_r, Z.add_0_r. apply Z.mod_small.
    pose proof (mpval_bound_B b Hok). pose proof (Z.mod_le (mpval b) (2 ^ n)).
    pose proof (Z.mod_pos_bound (mpval b) (2 ^ n)). unfold V. lia.
Qed.

Lemma wp_clear_bits_below : forall b n (Q : mp -> Prop), mp_ok b -> 0 <= n < 2 ^ UW ->
  (forall b', same_upto b b' (mpval b - mpval b mod 2 ^ n) -> Q b') -> wp (clear_bits_below_mp b n) Q.
Proof.
  intros b n Q Hok Hn HQ. unfold clear_bits_below_mp.
  destruct (begin_split n) as (EP & D0 & MB & DM); [lia|]. set (k := n / W) in *. set (r := n mod W) in *.
  pose proof W_pos as HW. pose proof B_pos as HB. pose proof (nlimbs_nonneg b) as HN.
  pf (pow2_lt_B r) as PB. pose proof (Bpow_pos k D0) as BK. pose proof LB_pos as HLB.
  pose proof (mpval_bound_B b Hok) as VB.
  apply wp_bind, wp_clear_below; auto; [apply mul_nn; lia| |].
  { right. left. split; [apply Z.mod_mul; lia|]. pose proof UW_big as UB. change (2 ^ 32) with 4294967296 in UB. unfold W in DM. destruct LB_cases; lia. }
  intros b1 (O1 & S1 & V1). rewrite <- Bpow256 in V1 by lia.
  apply wp_mif; intros E.
  - apply Z.leb_le in E. rewrite (shape_nlimbs b b1) in E by auto. apply wp_ret, HQ. split; [auto|split; [auto|]].
    rewrite V1. rewrite vmod_full by auto. rewrite Z.mod_small; auto.
    split; [lia|]. eapply Z.lt_le_trans; [apply VB|].
    rewrite EP. assert (B ^ nlimbs b <= B ^ k) by (apply Z.pow_le_mono_r; lia). nia.
  - apply Z.leb_gt in E. rewrite (shape_nlimbs b b1) in E by auto.
    apply wp_bind, wp_lsb_mask; [lia|]. apply wp_bind, wp_load; auto.
    { rewrite (shape_nlimbs b b1) by auto. lia. }
    rewrite land_lnot_mask; [|apply limb_isl|lia].
    assert (NB : 0 <= k < nlimbs b1) by (rewrite (shape_nlimbs b b1) by auto; lia).
    pose proof (Z.mod_pos_bound (limb b1 k) (2 ^ r)) as XB.
    pose proof (Z.mod_le (limb b1 k) (2 ^ r)) as XL. pose proof (limb_lim b1 k O1 NB) as LL.
    apply wp_store; auto; [lia|].
    intros b2 (O2 & S2 & V2). apply HQ. split; [auto|split; [eapply shape_trans; eauto|]].
    rewrite V2, V1. rewrite EP, mod_pow2_limb by lia.
    assert (LE : limb b1 k = vlimb (mpval b) k).
    { unfold limb. rewrite V1. rewrite sub_mod_eq by lia. rewrite Z.mul_comm, Z.div_mul by lia. auto. }
    rewrite LE. lia.
Qed.

(** ** Conditional swap *)
Lemma wp_swap_cond : forall a b z (Q : mp * mp -> Prop), mp_ok a -> mp_ok b -> nlimbs a = nlimbs b ->
  (z = true -> mpval a < 256 ^ mp_len b /\ mpval b < 256 ^ mp_len a) ->
  (forall a' b', same_upto a a' (if z then mpval b else mpval a) -> same_upto b b' (if z then mpval a else mpval b) -> Q (a', b')) ->
  wp (ct_swap_cond_mp a b (chc z)) Q.
Proof.
  intros a b z Q Ha Hb HN HF HQ. unfold ct_swap_cond_mp.
  pose proof (nlimbs_nonneg a) as NN. pose proof B_gt as HB. pose proof (mpval_nonneg a Ha). pose proof (mpval_nonneg b Hb).
  apply wp_bind, wp_dassert; [apply Z.eqb_eq; auto|].
  rewrite lc_select_chc by (try apply isl_0; rewrite lnot_0; unfold isl; lia).
  replace (if z then lnot 0 else 0) with (chc z) by (rewrite lnot_0; reflexivity).
  set (VA := if z then mpval b else mpval a). set (VB := if z then mpval a else mpval b).
  assert (FA : forall i, 0 <= i < nlimbs a -> vlimb VA i < lim a i).
  { intros i Hi. unfold VA. destruct z; [|apply limb_lim; auto].
    destruct (Z.eq_dec i (nlimbs a - 1)) as [->|]; [apply limb_of_small; [|lia]; split; [auto|apply HF; auto]|].
    rewrite lim_inner by lia. apply vlimb_isl. }
  assert (FB : forall i, 0 <= i < nlimbs b -> vlimb VB i < lim b i).
  { intros i Hi. unfold VB. destruct z; [|apply limb_lim; auto].
    destruct (Z.eq_dec i (nlimbs b - 1)) as [->|]; [apply limb_of_small; [|lia]; split; [auto|apply HF; auto]|].
    rewrite lim_inner by lia. apply vlimb_isl. }
  eapply wp_for with (I := fun i '(a', b') => mp_ok a' /\ same_shape a a' /\ mp_ok b' /\ same_shape b b' /\
     mpval a' = VA mod B ^ i + B ^ i * (mpval a / B ^ i) /\ mpval b' = VB mod B ^ i + B ^ i * (mpval b / B ^ i)); [lia| | |].
  - repeat (split; [first [apply shape_refl|assumption]|]). rewrite !vmod_0, !vdiv_0, Z.pow_0_r. lia.
  - intros i [a' b'] Hi (Oa & Sa & Ob & Sb & Va & Vb).
    pf (vmod_bound VA i) as LA. pf (vmod_bound VB i) as LBo.
    apply wp_bind, wp_load; auto; [rewrite (shape_nlimbs a a') by auto; lia|].
    apply wp_bind, wp_load; auto; [rewrite (shape_nlimbs b b') by auto; lia|].
    rewrite (up_limb a' (mpval a) _ i ltac:(lia) LA Va). rewrite (up_limb b' (mpval b) _ i ltac:(lia) LBo Vb).
    set (x := vlimb (mpval a) i). set (y := vlimb (mpval b) i).
    assert (XB : Z.lxor y (Z.land (Z.lxor x y) (chc z)) = vlimb VB i).
    { rewrite land_chc_r by (apply isl_lxor; apply vlimb_isl). unfold VB. destruct z.
      - rewrite Z.lxor_comm, Z.lxor_assoc, Z.lxor_nilpotent, Z.lxor_0_r. auto.
      - apply Z.lxor_0_r. }
    assert (XA : Z.lxor (Z.lxor x y) (vlimb VB i) = vlimb VA i).
    { unfold VA, VB. destruct z.
      - fold x y. rewrite (Z.lxor_comm x y), Z.lxor_assoc, Z.lxor_nilpotent, Z.lxor_0_r. auto.
      - fold x y. rewrite Z.lxor_assoc, Z.lxor_nilpotent, Z.lxor_0_r. auto. }
    rewrite XB, XA.
    apply wp_bind, wp_store; auto.
    { rewrite (shape_nlimbs a a') by auto; lia. } { rewrite (lim_shape a a') by auto. split; [apply vlimb_isl|auto]. }
    intros a2 Pa. apply wp_bind, wp_store; auto.
    { rewrite (shape_nlimbs b b') by auto; lia. } { rewrite (lim_shape b b') by auto. split; [apply vlimb_isl|apply FB; lia]. }
    intros b2 Pb. apply wp_ret.
    split; [apply Pa|split; [eapply shape_trans; [eauto|apply Pa]|]].
    split; [apply Pb|split; [eapply shape_trans; [eauto|apply Pb]|]].
    destruct (up_step a' a2 (mpval a) (VA mod B ^ i) i (vlimb VA i)) as [E _]; auto; [lia|apply vlimb_isl|].
    destruct (up_step b' b2 (mpval b) (VB mod B ^ i) i (vlimb VB i)) as [E' _]; auto; [lia|apply vlimb_isl|].
    rewrite E, E', !vmod_S by lia. auto.
  - intros [a' b'] (Oa & Sa & Ob & Sb & Va & Vb).
    pose proof (mpval_bound_B a Ha). pose proof (mpval_bound_B b Hb). rewrite HN in *.
    rewrite vdiv_full, Z.mul_0_r, Z.add_0_r in Va by (auto; lia).
    rewrite vdiv_full, Z.mul_0_r, Z.add_0_r in Vb by (auto; lia).
    rewrite Z.mod_small in Va by (unfold VA; destruct z; lia). rewrite Z.mod_small in Vb by (unfold VB; destruct z; lia).
    apply HQ; (split; [auto|split; auto]).
Qed.

(** ** Native integers *)
Lemma wp_set_to_native : forall sz b v (Q : mp -> Prop), mp_ok b -> (sz = 1 \/ sz = 2 \/ sz = 4 \/ sz = 8) ->
  sz <= mp_len b -> 0 <= v < 256 ^ sz ->
  (forall b', same_upto b b' v -> Q b') -> wp (set_to_native sz b v) Q.
Proof.
  intros sz b v Q Hok Hsz HL Hv HQ. unfold set_to_native. pose proof LB_pos as HLB.
  assert (SP : 0 < sz) by lia. pose proof B_gt as HB.
  apply wp_bind, wp_dassert; [apply Z.leb_le; lia|].
  apply wp_bind, wp_clear_above; auto; [lia|]. intros b0 (O0 & S0 & V0).
  pose proof (nlimbs_spec b0) as NS. rewrite (shape_len b b0) in NS by auto.
  assert (MSK : forall x, 0 <= x < 2 ^ (8 * sz) -> Z.land x (lnot 0 mod 2 ^ (8 * sz)) mod B = x mod B).
  { intros x Hx. rewrite lnot_0. rewrite <- ones_W.
    assert (Z.ones W mod 2 ^ (8 * sz) = Z.ones (Z.min W (8 * sz))).
    { pose proof W_pos. destruct (Z.min_spec W (8 * sz)) as [[? ->]|[? ->]].
      - apply Z.mod_small. rewrite ones_eq. pf (pow2_gt0 W).
        assert (2 ^ W <= 2 ^ (8 * sz)) by (apply Z.pow_le_mono_r; lia). lia.
      - rewrite !ones_eq. pf (pow2_gt0 (8 * sz)). pf (pow2_gt0 (W - 8 * sz)).
        apply mod_eq_of with (q := 2 ^ (W - 8 * sz) - 1); [lia|].
        replace (2 ^ W) with (2 ^ (8 * sz) * 2 ^ (W - 8 * sz)) by (rewrite <- Z.pow_add_r by lia; f_equal; lia). lia. }
    rewrite H. pose proof W_pos. rewrite Z.land_ones by lia.
    destruct (Z.min_spec W (8 * sz)) as [[? ->]|[? ->]].
    - rewrite B_eq. apply Z.mod_mod. pose proof (pow2_gt0 W); lia.
    - rewrite (Z.mod_small x) by lia. auto. }
  set (n := ct_mp_nlimbs sz).
  assert (HSC : (sz <= LB /\ n = 1) \/ (sz = 2 * LB /\ n = 2)).
  { unfold n. destruct LB_cases as [F|F]; rewrite F in *; destruct Hsz as [-> |[-> |[-> | ->]]]; unfold ct_mp_nlimbs; rewrite ?F;
    first [left; split; [lia|reflexivity]|right; split; [lia|reflexivity]]. }
  assert (NN : n <= nlimbs b0).
  { destruct HSC as [[? ->]|[? ->]]; destruct LB_cases as [F|F]; rewrite F in *; lia. }
  rewrite <- (pow256 sz) in * by lia.
  apply wp_bind.
  eapply wp_for with (I := fun i '(b', x) => mp_ok b' /\ same_shape b b' /\ (i < n -> x = v / B ^ i) /\
     mpval b' = v mod B ^ i + B ^ i * (mpval b0 / B ^ i)).
  - destruct HSC as [[? ->]|[? ->]]; lia.
  - split; [auto|split; [auto|]]. rewrite vmod_0, !vdiv_0, Z.pow_0_r. split; [auto|lia].
  - intros i [b' x] Hi (Ob & Sb & Hx & Vb). rewrite Hx by lia.
    pf (vmod_bound v i) as LA. pf (Bpow_pos i) as BP.
    assert (DV : 0 <= v / B ^ i < 256 ^ sz).
    { split; [apply Z.div_pos; lia|]. pose proof (Z.div_le_upper_bound v (B ^ i) v). nia. }
    rewrite MSK by auto. change ((v / B ^ i) mod B) with (vlimb v i).
    apply wp_bind, wp_store; auto.
    { rewrite (shape_nlimbs b b') by auto. rewrite (shape_nlimbs b b0) in NN by auto. lia. }
    { rewrite (lim_shape b b') by auto. split; [apply vlimb_isl|].
      unfold lim. destruct (Z.min_spec LB (mp_len b - i * LB)) as [[? ->]|[? ->]].
      - rewrite <- B_256'. apply vlimb_isl.
      - eapply Z.le_lt_trans; [apply Z.mod_le; [lia|apply B_pos]|].
        destruct HSC as [[? ?]|[? ?]].
        + replace i with 0 by lia. rewrite Z.pow_0_r, Z.div_1_r. eapply Z.lt_le_trans; [apply Hv|].
          apply Z.pow_le_mono_r; lia.
        + apply (div_pos_bound v); auto. split; [lia|]. eapply Z.lt_le_trans; [apply Hv|].
          assert (0 <= i * LB) by (apply mul_nn; lia). assert (i * LB <= 1 * LB) by (apply Z.mul_le_mono_nonneg_r; lia).
          rewrite Bpow256, <- Z.pow_add_r by lia. apply Z.pow_le_mono_r; lia. }
    intros b2 Pb. apply wp_ret. split; [apply Pb|split; [eapply shape_trans; [eauto|apply Pb]|]].
    destruct (up_step b' b2 (mpval b0) (v mod B ^ i) i (vlimb v i)) as [E _]; auto; [lia|apply vlimb_isl|].
    rewrite E, vmod_S by lia. split; [|auto].
    intros L. destruct HSC as [[? ?]|[? ?]]; [lia|].
    replace (Z.min W (8 * sz - 1)) with W by (unfold W; lia). rewrite <- B_eq.
    rewrite <- div_mul_div by lia. f_equal. rewrite Bpow_S by lia. lia.
  - intros [b' x] (Ob & Sb & _ & Vb). apply wp_ret. apply HQ. split; [auto|split; [auto|]]. rewrite Vb, V0.
    assert (NP : 256 ^ sz <= B ^ n).
    { rewrite Bpow256 by lia. apply Z.pow_le_mono_r; [lia|]. destruct HSC as [[? ->]|[? ->]]; lia. }
    pf (Z.mod_pos_bound (mpval b) (256 ^ sz)).
    rewrite (Z.div_small (_ mod _)) by lia. rewrite Z.mod_small by lia. lia.
Qed.

Lemma wp_try_into_native : forall sz b (Q : result Z unit -> Prop), mp_ok b -> (sz = 1 \/ sz = 2 \/ sz = 4 \/ sz = 8) ->
  ct_mp_nlimbs sz <= nlimbs b ->
  (mpval b < 256 ^ sz -> Q (Ok (mpval b))) -> (256 ^ sz <= mpval b -> Q (Err tt)) ->
  wp (try_into_native sz b) Q.
Proof.
  intros sz b Q Hok Hsz HN HQ0 HQ1. unfold try_into_native. pose proof LB_pos as HLB. pose proof B_gt as HB.
  pose proof (nlimbs_spec b) as NS. pose proof W_pos as HW. pose proof (mpval_nonneg b Hok) as V0.
  set (n := ct_mp_nlimbs sz) in *. set (nf := (sz - 1) mod LB + 1).
  assert (HSC : (sz <= LB /\ n = 1 /\ nf = sz) \/ (sz = 2 * LB /\ n = 2 /\ nf = LB)).
  { unfold n, nf. destruct LB_cases as [F|F]; rewrite F in *; destruct Hsz as [-> |[-> |[-> | ->]]]; unfold ct_mp_nlimbs; rewrite ?F;
    first [left; split; [lia|split; reflexivity]|right; split; [lia|split; reflexivity]]. }
  assert (SP : 0 < sz) by lia.
  apply wp_bind.
  eapply wp_for with (I := fun i h => isl h /\ (h = 0 <-> (mpval b mod B ^ i) / B ^ n = 0)).
  - lia.
  - split; [apply isl_0|]. split; auto. intros _. apply Z.div_small. apply vmod_bound. lia.
  - intros i h Hi (Hh & HI). apply wp_bind, wp_load; auto; [lia|]. apply wp_ret.
    pose proof (limb_isl b i) as LI. split; [apply isl_lor; auto|].
    rewrite vmod_S by lia.
    assert (E : (mpval b mod B ^ i + vlimb (mpval b) i * B ^ i) / B ^ n = (mpval b mod B ^ i) / B ^ n + vlimb (mpval b) i * B ^ (i - n)).
    { replace (B ^ i) with (B ^ (i - n) * B ^ n) at 2 by (rewrite <- Z.pow_add_r by lia; f_equal; lia).
      rewrite Z.mul_assoc. apply Z.div_add. pose proof (Bpow_pos n); lia. }
    rewrite E. pf (Bpow_pos (i - n)). pf (Bpow_pos n).
    pf (vmod_bound (mpval b) i).
    assert (0 <= mpval b mod B ^ i / B ^ n) by (apply Z.div_pos; lia).
    rewrite Z.lor_eq_0_iff, HI, limb_vlimb. rewrite limb_vlimb in LI. unfold isl in LI. split; intros; nia.
  - intros h (Hh & HI). rewrite vmod_full in HI by (auto; lia).
    apply wp_bind, wp_load; auto; [lia|]. apply wp_bind, wp_lsb_mask; [unfold W; lia|].
    rewrite land_lnot_mask; [|apply limb_isl|unfold W; lia].
    pose proof (limb_isl b (n - 1)) as LI. pf (pow2_gt0 (8 * nf)) as PN.
    pose proof (Z.mod_pos_bound (limb b (n - 1)) (2 ^ (8 * nf)) PN) as MB.
    pose proof (Z.mod_le (limb b (n - 1)) (2 ^ (8 * nf)) (proj1 LI) PN) as ML.
    apply wp_bind, wp_is_nonzero. { apply isl_lor; auto. unfold isl in *; lia. }
    assert (NP : 256 ^ sz = B ^ (n - 1) * 2 ^ (8 * nf)).
    { rewrite <- (pow256 nf) by lia. rewrite Bpow256 by lia. rewrite <- Z.pow_add_r.
      - f_equal. destruct HSC as [(? & -> & ->)|(? & -> & ->)]; lia.
      - apply mul_nn; lia.
      - lia. }
    pf (Bpow_pos (n - 1)) as BP1. pf (Bpow_pos n) as BPn.
    assert (IFF : Z.lor h (limb b (n - 1) - limb b (n - 1) mod 2 ^ (8 * nf)) = 0 <-> mpval b < 256 ^ sz).
    { rewrite Z.lor_eq_0_iff, HI. rewrite NP.
      pf (vdiv_S (mpval b) (n - 1)) as D. replace (n - 1 + 1) with n in D by lia.
      rewrite <- limb_vlimb in D. set (x := limb b (n - 1)) in *.
      assert (0 <= mpval b / B ^ n) by (apply Z.div_pos; lia).
      split.
      - intros [A1 A2]. apply Z.lt_nge. intros G.
        assert (2 ^ (8 * nf) <= mpval b / B ^ (n - 1)) by (apply Z.div_le_lower_bound; lia). lia.
      - intros L. assert (DL : mpval b / B ^ (n - 1) < 2 ^ (8 * nf)) by (apply Z.div_lt_upper_bound; lia).
        assert (2 ^ (8 * nf) <= B). { rewrite B_eq. apply Z.pow_le_mono_r; unfold W; lia. }
        assert (mpval b / B ^ n = 0) by (unfold isl in LI; nia). split; auto.
        rewrite Z.mod_small; unfold isl in LI; lia. }
    apply wp_mif; intros E.
    + apply wp_ret. apply HQ1. apply Z.le_ngt. intros C. apply IFF in C. rewrite C in E. discriminate.
    + assert (C : mpval b < 256 ^ sz).
      { apply IFF. destruct (Z.eqb_spec (Z.lor h (limb b (n - 1) - limb b (n - 1) mod 2 ^ (8 * nf))) 0); auto. discriminate. }
      rewrite land_mask by lia.
      assert (X : limb b (n - 1) mod 2 ^ (8 * nf) = mpval b / B ^ (n - 1)).
      { assert (DL : mpval b / B ^ (n - 1) < 2 ^ (8 * nf)) by (rewrite NP in C; apply Z.div_lt_upper_bound; lia).
        assert (0 <= mpval b / B ^ (n - 1)) by (apply Z.div_pos; lia).
        assert (2 ^ (8 * nf) <= B). { rewrite B_eq. apply Z.pow_le_mono_r; unfold W; lia. }
        unfold limb. rewrite (Z.mod_small _ B) by lia. apply Z.mod_small; lia. }
      rewrite X.
      assert (XS : forall j, 0 <= j -> 0 <= mpval b / B ^ j < 2 ^ (8 * sz)).
      { intros j Hj. pose proof (Bpow_pos j Hj). rewrite <- pow256 by lia.
        split; [apply Z.div_pos; lia|]. eapply Z.le_lt_trans; [|apply C]. apply Z.div_le_upper_bound; [lia|]. pf (mul_le_l (mpval b) 1 (B ^ j)). lia. }
      apply wp_bind.
      eapply wp_for_down with (I := fun i r => r = mpval b / B ^ i).
      * destruct HSC as [(? & -> & ->)|(? & -> & ->)]; lia.
      * apply Z.mod_small. apply XS. lia.
      * intros i r Hi ->. apply wp_bind, wp_load_full; auto; [lia|apply nlimbs_full; lia|]. apply wp_ret.
        destruct HSC as [(? & -> & ->)|(? & EN & ->)]; [lia|].
        replace (Z.min W (8 * sz - 1)) with W by (unfold W; lia). rewrite <- B_eq.
        pf (vdiv_S (mpval b) i) as D. rewrite <- limb_vlimb in D.
        pf (XS i) as XI. pose proof (limb_isl b i) as LI'. unfold isl in LI'.
        pf (XS (i + 1)).
        assert (0 <= mpval b / B ^ (i + 1) * B) by (apply mul_nn; lia).
        rewrite (Z.mod_small (limb b i)).
        -- rewrite Z.mod_small by lia. rewrite B_eq at 2. rewrite lor_shift_add by (try exact LI'; lia).
           rewrite <- B_eq. lia.
        -- split; [lia|]. eapply Z.lt_le_trans; [apply LI'|]. rewrite B_eq. apply Z.pow_le_mono_r; [lia|]. unfold W. lia.
      * intros r ->. apply wp_ret. rewrite vdiv_0. auto.
Qed.

(** ** Slices *)
Lemma wp_mp_take : forall b n (Q : mp * mp -> Prop), mp_ok b -> 0 <= n <= mp_len b ->
  (supports_unaligned b = true \/ n mod LB = 0) ->
  (forall hi lo, mp_ok hi -> mp_ok lo -> kind_of hi = kind_of b -> kind_of lo = kind_of b ->
     mp_len lo = n -> mp_len hi = mp_len b - n -> mpval lo = mpval b mod 256 ^ n -> mpval hi = mpval b / 256 ^ n ->
     Q (hi, lo)) -> wp (mp_take b n) Q.
Proof.
  intros b n Q [Hb Hs] Hn Hg HQ. pose proof LB_pos as HLB. pose proof B_pos as HB.
  destruct b as [l|l|l]; cbn [mp_len mp_take supports_unaligned] in *.
  - apply wp_bind, wp_usub; [lia|]. apply wp_bind, wp_slice; [lia|lia|]. apply wp_bind, wp_slice; [lia|lia|].
    apply wp_ret. rewrite Z.sub_0_r. change (skipn (Z.to_nat 0) l) with l.
    set (hi := firstn _ l). set (lo := firstn _ (skipn _ l)).
    assert (LH : zlen hi = zlen l - n) by (apply firstn_length_z; lia).
    assert (LL : zlen lo = n). { unfold lo. rewrite seg_length_z; lia. }
    apply HQ; auto; cbn [mp_ok mp_len mpval].
    + split; [apply digits_ok_firstn; auto|cbn [mp_len]; lia].
    + split; [apply digits_ok_firstn, digits_ok_skipn; auto|cbn [mp_len]; lia].
    + unfold be_val, lo. rewrite rev_seg by lia. replace (zlen l - (zlen l - n)) with n by lia.
      rewrite Z.sub_diag. rewrite seg_val by (try apply digits_ok_rev; auto; try lia; rewrite zlen_rev; lia).
      rewrite Z.pow_0_r, Z.div_1_r. auto.
    + unfold be_val. replace (rev hi) with (skipn (Z.to_nat n) (rev l)).
      * rewrite digits_val_skipn; try lia; [rewrite Z2Nat.id by lia; auto|apply digits_ok_rev; auto|].
        rewrite rev_length. unfold zlen in *. lia.
      * unfold hi. rewrite skipn_rev. do 2 f_equal. unfold zlen in *. lia.
  - apply wp_bind, wp_slice; [lia|lia|]. apply wp_bind, wp_slice; [lia|lia|].
    apply wp_ret. rewrite Z.sub_0_r. change (skipn (Z.to_nat 0) l) with l.
    set (lo := firstn _ l). set (hi := firstn _ (skipn _ l)).
    assert (LL : zlen lo = n) by (apply firstn_length_z; lia).
    assert (LH : zlen hi = zlen l - n). { unfold hi. rewrite seg_length_z; lia. }
    apply HQ; auto; cbn [mp_ok mp_len mpval].
    + split; [apply digits_ok_firstn, digits_ok_skipn; auto|cbn [mp_len]; lia].
    + split; [apply digits_ok_firstn; auto|cbn [mp_len]; lia].
    + unfold le_val, lo. rewrite digits_val_firstn, Z2Nat.id by (auto; unfold zlen in *; lia). auto.
    + unfold le_val, hi. rewrite firstn_all2 by (rewrite skipn_length; unfold zlen in *; lia).
      rewrite digits_val_skipn, Z2Nat.id by (auto; unfold zlen in *; lia). auto.
  - destruct Hg as [Hg|Hg]; [discriminate|]. pf (Z.div_mod n LB) as DM.
    assert (D0 : 0 <= n / LB) by (apply Z.div_pos; lia).
    apply wp_bind, wp_dassert; [apply Z.eqb_eq; auto|].
    assert (NE_ : ne_elements_for_len n = n / LB).
    { unfold ne_elements_for_len, ct_mp_limbs_align_len. rewrite (ct_mp_nlimbs_unique n (n / LB)) by lia.
      rewrite Z.mod_mul, Z.div_mul by lia. cbn [Z.eqb negb]. lia. }
    rewrite NE_. set (k := n / LB) in *.
    assert (KL : k <= zlen l) by nia.
    apply wp_bind, wp_slice; [lia|lia|]. apply wp_bind, wp_slice; [lia|lia|].
    apply wp_ret. rewrite Z.sub_0_r. change (skipn (Z.to_nat 0) l) with l.
    set (lo := firstn _ l). set (hi := firstn _ (skipn _ l)).
    assert (LL : zlen lo = k) by (apply firstn_length_z; lia).
    assert (LH : zlen hi = zlen l - k). { unfold hi. rewrite seg_length_z; lia. }
    assert (BN : B ^ k = 256 ^ n). { rewrite Bpow256 by lia. f_equal. lia. }
    apply HQ; auto; cbn [mp_ok mp_len mpval]; rewrite ?LL, ?LH; try lia.
    + split; [apply digits_ok_firstn, digits_ok_skipn; auto|cbn [mp_len]; nia].
    + split; [apply digits_ok_firstn; auto|cbn [mp_len]; nia].
    + unfold lo. change (2 ^ (8 * LB)) with B in *. rewrite digits_val_firstn, Z2Nat.id, BN by (auto; unfold zlen in *; lia). auto.
    + unfold hi. change (2 ^ (8 * LB)) with B in *. rewrite firstn_all2 by (rewrite skipn_length; unfold zlen in *; lia).
      rewrite digits_val_skipn, Z2Nat.id, BN by (auto; unfold zlen in *; lia). auto.
Qed.

(** Length of the slice shrink_to yields. *)
Definition shrunk_len (b : mp) (n : Z) : Z :=
  let n := Z.min n (mp_len b) in if supports_unaligned b then n else ct_mp_limbs_align_len n.

Lemma wp_shrink_to : forall b n (Q : mp -> Prop), mp_ok b -> 0 <= n -> mpval b < 256 ^ n ->
  (forall b', mp_ok b' -> kind_of b' = kind_of b -> mp_len b' = shrunk_len b n -> mpval b' = mpval b -> Q b') ->
  wp (mp_shrink_to b n) Q.
Proof.
  intros b n Q Hok Hn Hv HQ. unfold mp_shrink_to. set (m := Z.min n (mp_len b)) in *.
  pose proof (mp_len_nonneg b) as L0. pose proof (mpval_bound b Hok) as VB. pose proof LB_pos as HLB.
  assert (Hm : mpval b < 256 ^ m). { unfold m. destruct (Z.min_spec n (mp_len b)) as [[? ->]|[? ->]]; lia. }
  apply wp_bind, wp_dassert_m.
  { apply wp_bind, wp_find_last_set_byte; auto. apply wp_ret. apply Z.leb_le. apply nbytes_le_iff; lia. }
  destruct b as [l|l|l].
  - assert (T : wp (mp_take (BE l) m) (fun '(_, lo) => Q lo)).
    { apply wp_mp_take; auto; [lia|]. intros. apply HQ; auto. rewrite H5. apply Z.mod_small. lia. }
    cbn [mp_take mp_shrink_to_priv] in *. cbn [mp_len] in *. apply wp_bind, wp_usub; [lia|].
    apply wp_bind_inv in T. apply wp_bind, wp_slice; [lia|lia|]. apply wp_ret.
    unfold usub in T. destruct (Z.leb_spec m (zlen l)); [|lia].
    unfold wp, ret in T. cbn [snd] in T. unfold slice in T. repeat match type of T with context [if ?b then _ else _] => replace b with true in T by (symmetry; rewrite ?andb_true_iff, ?Z.leb_le; lia) end.
    cbn in T. exact T.
  - cbn [mp_shrink_to_priv]. cbn [mp_len] in *. apply wp_bind, wp_slice; [lia|lia|]. apply wp_ret.
    rewrite Z.sub_0_r. change (skipn (Z.to_nat 0) l) with l. destruct Hok as [Hb Hs]. cbn [mp_len] in Hs.
    assert (LL : zlen (firstn (Z.to_nat m) l) = m) by (apply firstn_length_z; lia).
    apply HQ; auto.
    + split; [apply digits_ok_firstn; auto|cbn [mp_len]; lia].
    + cbn [mpval] in *. unfold le_val in *. rewrite digits_val_firstn, Z2Nat.id by (auto; unfold zlen in *; lia). apply Z.mod_small. lia.
  - cbn [mp_shrink_to_priv]. cbn [mp_len] in *. pf (ct_mp_nlimbs_spec m) as NS.
    set (k := ct_mp_nlimbs m) in *.
    assert (NE_ : ne_elements_for_len m = k).
    { unfold ne_elements_for_len, ct_mp_limbs_align_len. fold k.
      rewrite Z.mod_mul, Z.div_mul by lia. cbn [Z.eqb negb]. lia. }
    rewrite NE_. assert (KL : k <= zlen l). { destruct LB_cases as [F|F]; rewrite F in *; lia. }
    apply wp_bind, wp_slice; [lia|lia|]. apply wp_ret.
    rewrite Z.sub_0_r. change (skipn (Z.to_nat 0) l) with l. destruct Hok as [Hb Hs]. cbn [mp_len] in Hs.
    assert (LL : zlen (firstn (Z.to_nat k) l) = k) by (apply firstn_length_z; lia).
    apply HQ; auto.
    + split; [apply digits_ok_firstn; auto|cbn [mp_len]; nia].
    + unfold shrunk_len. cbn [mp_len supports_unaligned]. fold m. rewrite LL. reflexivity.
    + cbn [mpval] in *. change (2 ^ (8 * LB)) with B in *.
      rewrite digits_val_firstn, Z2Nat.id by (auto; try apply B_pos; unfold zlen in *; lia). apply Z.mod_small.
      split; [lia|]. eapply Z.lt_le_trans; [apply Hm|]. rewrite Bpow256 by lia. apply Z.pow_le_mono_r; lia.
Qed.

Lemma unshrink_spec : forall b lo, mp_ok b -> mp_ok lo -> kind_of lo = kind_of b -> mp_len lo <= mp_len b ->
  mp_ok (mp_unshrink b lo) /\ same_shape b (mp_unshrink b lo) /\
  mpval (mp_unshrink b lo) = mpval lo + 256 ^ mp_len lo * (mpval b / 256 ^ mp_len lo).
Proof.
  intros b lo [Hb Hs] [Hl _] K L. pose proof LB_pos. pose proof B_pos.
  destruct b as [l|l|l], lo as [s|s|s]; try discriminate; cbn [mp_unshrink mp_len] in *.
  - assert (LN : zlen (firstn (length l - length s) l ++ s) = zlen l).
    { rewrite zlen_app, zlen_firstn by lia. unfold zlen in *. lia. }
    split; [split|split; [split|]]; cbn [mp_len]; rewrite ?LN; auto.
    + apply digits_ok_app. split; auto. apply digits_ok_firstn; auto.
    + cbn [mpval]. unfold be_val. rewrite rev_app_distr, digits_val_app, zlen_rev. f_equal. f_equal.
      rewrite <- skipn_rev. rewrite digits_val_skipn; auto; try lia. apply digits_ok_rev; auto.
      rewrite rev_length. unfold zlen in *; lia.
  - assert (LN : zlen (s ++ skipn (length s) l) = zlen l).
    { rewrite zlen_app, zlen_skipn by (unfold zlen in *; lia). unfold zlen in *. lia. }
    split; [split|split; [split|]]; cbn [mp_len]; rewrite ?LN; auto.
    + apply digits_ok_app. split; auto. apply digits_ok_skipn; auto.
    + cbn [mpval]. unfold le_val. rewrite digits_val_app. f_equal. f_equal.
      rewrite digits_val_skipn; auto; try lia. unfold zlen in *; lia.
  - assert (zlen s <= zlen l) by nia.
    assert (LN : zlen (s ++ skipn (length s) l) = zlen l).
    { rewrite zlen_app, zlen_skipn by (unfold zlen in *; lia). unfold zlen in *. lia. }
    split; [split|split; [split|]]; cbn [mp_len]; rewrite ?LN; auto.
    + apply digits_ok_app. split; auto. apply digits_ok_skipn; auto.
    + cbn [mpval]. change (2 ^ (8 * LB)) with B in *. rewrite digits_val_app, Bpow256 by apply zlen_nonneg. f_equal. f_equal.
      rewrite digits_val_skipn; auto; try (unfold zlen in *; lia). rewrite <- Bpow256 by apply zlen_nonneg. reflexivity.
Qed.

End Facts.
