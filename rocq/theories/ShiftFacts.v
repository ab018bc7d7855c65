(** Facts about the shift routines. *)
From Coq Require Import ZArith List Bool Lia.
Require Import Verif.Spec Verif.Base Verif.Monad Verif.Wp Verif.ModelLimb Verif.LimbFacts Verif.LimbFacts2
  Verif.ModelBuf Verif.SpecBuf Verif.BufFacts Verif.BufFacts2 Verif.BufFacts3 Verif.UpFacts Verif.CmpFacts Verif.ModelShift.
Import ListNotations.
Open Scope Z_scope.

Section Facts.
Context {c : cfg}.

Lemma len_nbits : forall a, 256 ^ mp_len a = 2 ^ (8 * mp_len a).
Proof. intros. change 256 with (2 ^ 8). rewrite <- Z.pow_mul_r by (pose proof (mp_len_nonneg a); lia). auto. Qed.

Lemma nbits_facts : forall a, mp_ok a -> nlimbs a <> 0 ->
  0 < nlimbs a /\ 0 < 8 * mp_len a /\ (nlimbs a - 1) * W < 8 * mp_len a <= nlimbs a * W /\ nlimbs a * W < 8 * mp_len a + W /\
  8 * mp_len a + W < 2 ^ UW /\ nlimbs a < 2 ^ UW /\ 16 * mp_len a + 2 * W < 2 * 2 ^ UW.
Proof.
  intros a [_ Ha] E. pose proof (nlimbs_spec a) as H. pose proof UW_gt. pose proof LB_pos. unfold W. destruct LB_cases as [EL|EL]; rewrite EL in *; lia.
Qed.

(** Bits of two adjacent limbs shifted together. *)
Definition comb (s h l : Z) : Z :=
  Z.lor ((Z.land h (if s =? 0 then 0 else B - 1) * 2 ^ (if s =? 0 then 0 else W - s)) mod B) (l / 2 ^ s).

Lemma comb_isl : forall s h l, 0 <= s -> isl h -> isl l -> isl (comb s h l).
Proof.
  intros s h l Hs Hh Hl. unfold comb. apply isl_lor; [apply isl_mod|]. pf (pow2_gt0 s). unfold isl in *.
  split; [apply Z.div_pos; lia|]. apply Z.le_lt_trans with l; [apply Z.div_le_upper_bound; try lia|lia].
  replace l with (1 * l) at 1 by lia. apply Z.mul_le_mono_nonneg_r; lia.
Qed.
Lemma isl_bit : forall x k, isl x -> W <= k -> Z.testbit x k = false.
Proof. intros x k Hx Hk. unfold isl, B in Hx. apply (testbit_above x W); auto. Qed.
Lemma comb_bit : forall s h l k, 0 <= s < W -> isl h -> isl l -> 0 <= k < W ->
  Z.testbit (comb s h l) k = if k <? W - s then Z.testbit l (k + s) else Z.testbit h (k - (W - s)).
Proof.
  intros s h l k Hs Hh Hl Hk. unfold comb. rewrite Z.lor_spec, Z.div_pow2_bits by lia. destruct (Z.eqb_spec s 0) as [->|E].
  - rewrite Z.land_0_r. cbn [Z.mul]. rewrite Z.mod_0_l, Z.testbit_0_l by (pose proof B_pos; lia). cbn [orb].
    destruct (Z.ltb_spec k (W - 0)); [auto|lia].
  - rewrite <- ones_W, land_ones_mod by (pose proof W_pos; lia). rewrite <- B_eq, (Z.mod_small h) by auto.
    rewrite B_eq, Z.mod_pow2_bits_low, Z.mul_pow2_bits by lia.
    destruct (Z.ltb_spec k (W - s)).
    + rewrite Z.testbit_neg_r by lia. auto.
    + rewrite (isl_bit l) by (auto; lia). apply orb_false_r.
Qed.
Lemma vlimb_bit : forall v i k, 0 <= i -> 0 <= k < W -> Z.testbit (vlimb v i) k = Z.testbit v (i * W + k).
Proof.
  intros. unfold vlimb. rewrite B_eq at 2. rewrite Z.mod_pow2_bits_low by lia. rewrite Bpow2, Z.div_pow2_bits by (try apply mul_nn; lia).
  f_equal. lia.
Qed.

(** The limb's worth of bits of [v] starting at bit [b]. *)
Lemma extract : forall v b, 0 <= b -> (v / 2 ^ b) mod B = comb (b mod W) (vlimb v (b / W + 1)) (vlimb v (b / W)).
Proof.
  intros v b Hb. pose proof W_pos as HW. pf (Z.div_mod b W) as DM. pf (Z.mod_pos_bound b W) as MB.
  assert (D0 : 0 <= b / W) by (apply Z.div_pos; lia).
  set (i := b / W) in *. set (s := b mod W) in *. clearbody i s.
  apply Z.bits_inj'. intros k Hk. destruct (Z_lt_le_dec k W) as [L|L].
  - rewrite comb_bit by (auto; try apply vlimb_isl; lia). rewrite B_eq, Z.mod_pow2_bits_low, Z.div_pow2_bits by lia.
    destruct (Z.ltb_spec k (W - s)); rewrite vlimb_bit by lia; f_equal; lia.
  - rewrite !isl_bit; auto; [apply comb_isl; try apply vlimb_isl; lia|apply isl_mod].
Qed.
Lemma mask_shift : forall h s, 0 <= s < W -> isl h ->
  (Z.land h (2 ^ s - 1) * 2 ^ ((W - s) mod W)) mod B = (Z.land h (if s =? 0 then 0 else B - 1) * 2 ^ (if s =? 0 then 0 else W - s)) mod B.
Proof.
  intros h s Hs Hh. destruct (Z.eqb_spec s 0) as [->|E].
  - change (2 ^ 0 - 1) with 0. rewrite !Z.land_0_r. auto.
  - rewrite <- ones_W, <- ones_eq, !land_ones_mod by lia. rewrite <- B_eq, (Z.mod_small h B) by auto. rewrite (Z.mod_small (W - s)) by lia.
    pf (pow2_gt0 s). pf (pow2_gt0 (W - s)).
    assert (EB : B = 2 ^ s * 2 ^ (W - s)) by (unfold B; rewrite <- Z.pow_add_r by lia; f_equal; lia).
    rewrite EB, !Z.mul_mod_distr_r by lia. rewrite Z.mod_mod by lia. auto.
Qed.

Lemma sel_u : forall b v0 v1, isu v0 -> isu v1 -> lc_select_usize (chc b) v0 v1 = if b then v1 else v0.
Proof. intros. apply lc_select_usize_chc; auto. Qed.
Lemma uwsub_isu : forall a b, isu (uwsub a b).
Proof. intros. unfold uwsub, isu. apply Z.mod_pos_bound. apply pow2_gt0. pose proof UW_pos; lia. Qed.
Lemma uwsub_ok : forall a b, isu (a - b) -> uwsub a b = a - b.
Proof. intros. apply Z.mod_small. auto. Qed.
Lemma udiv_isu : forall a b, isu a -> 0 < b -> isu (a / b).
Proof.
  unfold isu. intros a b H Hb. split; [apply Z.div_pos; lia|]. apply Z.le_lt_trans with a; [|lia].
  apply Z.div_le_upper_bound; [lia|]. replace a with (1 * a) at 1 by lia. apply Z.mul_le_mono_nonneg_r; lia.
Qed.

Lemma vhigh_zero : forall a i, mp_ok a -> nlimbs a <= i -> vlimb (mpval a) i = 0.
Proof. intros. apply (vlimb_out _ (nlimbs a)); auto. apply mpval_bound_B; auto. Qed.

(** Both routines extract [W] bits from bit [b] on. *)
Lemma out_core : forall V nl b gt hi, 0 <= V < B ^ nl -> 0 <= nl -> 0 <= b ->
  (gt = true -> nl * W < b + W) -> (gt = false -> b mod W <> 0 -> hi = b / W + 1) ->
  Z.lor ((Z.land (vlimb V hi) (if gt then 0 else 2 ^ (b mod W) - 1) * 2 ^ ((W - b mod W) mod W)) mod B) (vlimb V (b / W) / 2 ^ (b mod W)) = (V / 2 ^ b) mod B.
Proof.
  intros V nl b gt hi HV Hn Hb H1 H2. pose proof W_pos as HW. pf (Z.div_mod b W) as DM. pf (Z.mod_pos_bound b W) as MB.
  rewrite extract by auto. unfold comb. f_equal. destruct gt.
  - rewrite (vlimb_out V nl (b / W + 1)); auto; [rewrite Z.land_0_r, Z.land_0_l; auto|].
    specialize (H1 eq_refl). assert (nl < b / W + 2); [|lia]. apply (mul_lt_cancel W); lia.
  - rewrite mask_shift by (auto; apply vlimb_isl). destruct (Z.eqb_spec (b mod W) 0) as [E|E].
    + rewrite !Z.land_0_r. auto.
    + rewrite H2; auto.
Qed.

Lemma isl_div : forall x s, isl x -> 0 <= s -> isl (x / 2 ^ s).
Proof.
  unfold isl. intros x s Hx Hs. pf (pow2_gt0 s). split; [apply Z.div_pos; lia|]. apply Z.le_lt_trans with x; [|lia].
  apply Z.div_le_upper_bound; [lia|]. replace x with (1 * x) at 1 by lia. apply Z.mul_le_mono_nonneg_r; lia.
Qed.

Lemma wp_lshift_out : forall a d (Q : Z -> Prop), mp_ok a -> nlimbs a <> 0 -> isu d ->
  Q ((mpval a * 2 ^ d / 256 ^ mp_len a) mod B) -> wp (lshift_out a d) Q.
Proof.
  intros a d Q Ha E Hd HQ. unfold lshift_out. rewrite len_nbits in HQ.
  destruct (nbits_facts a Ha E) as (N1 & N2 & N3 & N4 & N5 & N6 & _). unfold isu in Hd. pose proof W_pos as HW. pose proof B_pos as HB.
  pose proof (mpval_bound a Ha) as BV. rewrite len_nbits in BV. pose proof (mpval_bound_B a Ha) as BV2.
  set (n := 8 * mp_len a) in *. set (nl := nlimbs a) in *. clearbody n.
  assert (U0 : isu 0) by (unfold isu; lia). assert (Un : isu n) by (unfold isu; lia).
  apply wp_bind, wp_lt_usize; [auto|unfold isu; lia|].
  rewrite (sel_u _ (uwsub n d)) by (auto; apply uwsub_isu).
  assert (EB : (if n <? d then 0 else uwsub n d) = Z.max 0 (n - d)).
  { destruct (Z.ltb_spec n d); [lia|]. rewrite (uwsub_ok n d); unfold isu; lia. }
  rewrite EB. set (b := Z.max 0 (n - d)) in *. assert (Hb : 0 <= b <= n) by lia. clear EB.
  apply wp_bind, wp_geq_usize; auto; [unfold isu; lia|].
  rewrite (sel_u _ b n) by (auto; unfold isu; lia).
  replace (if n <=? b then n else b) with b by (destruct (Z.leb_spec n b); lia).
  apply wp_bind, wp_leq_usize; [unfold isu; lia|unfold isu; lia|].
  rewrite (sel_u _ (uwsub (n + W) d)) by (auto; apply uwsub_isu).
  assert (EE : (if n + W <=? d then 0 else uwsub (n + W) d) = Z.max 0 (n + W - d)).
  { destruct (Z.leb_spec (n + W) d); [lia|]. rewrite (uwsub_ok (n + W) d); unfold isu; lia. }
  rewrite EE. set (e1 := Z.max 0 (n + W - d)) in *. assert (He1 : isu e1) by (unfold isu; lia). clear EE.
  apply wp_bind, wp_gt_usize; [auto|unfold isu; lia|].
  rewrite (sel_u _ e1 n) by auto. set (gt := nl * W <? e1) in *. set (e := if gt then n else e1).
  assert (He : isu e /\ e <= nl * W /\ (d < n + W -> 0 < e)).
  { unfold e, gt. destruct (Z.ltb_spec (nl * W) e1); unfold isu in *; lia. }
  apply wp_bind, wp_usub; [lia|]. pf (Z.mod_pos_bound b W) as MB. pf (Z.mod_pos_bound (W - b mod W) W) as MB2.
  rewrite (sel_u _ (b / W) (nl - 1)) by (try (apply udiv_isu); unfold isu; lia).
  rewrite (sel_u _ (uwsub e 1 / W) 0) by (auto; apply udiv_isu; auto; apply uwsub_isu).
  apply wp_bind, wp_lsb_mask; [lia|]. pf (pow2_gt0 (b mod W)) as PP.
  assert (PB : 2 ^ (b mod W) < B) by (unfold B; apply Z.pow_lt_mono_r; lia).
  rewrite lc_select_chc; [|unfold isl; lia|apply isl_0].
  apply wp_bind, wp_load; auto.
  { fold nl. destruct (n <=? b) eqn:G; [lia|]. apply Z.leb_gt in G. split; [apply Z.div_pos; lia|]. apply Z.div_lt_upper_bound; lia. }
  apply wp_bind, wp_lshr; [lia|]. set (lo := if n <=? b then nl - 1 else b / W).
  set (hi := if n + W <=? d then 0 else uwsub e 1 / W).
  assert (EH : d < n + W -> hi = (e - 1) / W).
  { intros DD. unfold hi. destruct (Z.leb_spec (n + W) d); [lia|]. rewrite uwsub_ok; [auto|]. destruct He as (? & ? & HP). specialize (HP DD). unfold isu in *. lia. }
  apply wp_bind, wp_load; auto.
  { fold nl. destruct (Z_lt_le_dec d (n + W)) as [DD|DD].
    - rewrite EH by auto. destruct He as (? & ? & HP). specialize (HP DD). split; [apply Z.div_pos; lia|]. apply Z.div_lt_upper_bound; lia.
    - unfold hi. destruct (Z.leb_spec (n + W) d); lia. }
  apply wp_bind, wp_lshl; [lia|]. rewrite lc_or_chc.
  rewrite lc_select_chc; [|apply isl_lor; [apply isl_mod|apply isl_div; [apply limb_isl|lia]]|apply isl_0].
  rewrite (sel_u _ 0 (uwsub d n)) by (auto; apply uwsub_isu).
  assert (ER : (if n <? d then uwsub d n else 0) = Z.max 0 (d - n)).
  { destruct (Z.ltb_spec n d); [|lia]. rewrite uwsub_ok; unfold isu; lia. }
  rewrite ER. rewrite (sel_u _ (Z.max 0 (d - n)) 0) by (auto; unfold isu; lia).
  apply wp_lshl. { destruct (Z.leb_spec (n + W) d); lia. }
  rewrite !limb_vlimb. set (V := mpval a) in *.
  match goal with |- Q ?x => replace x with ((V * 2 ^ d / 2 ^ n) mod B); [auto|] end. clear HQ.
  pf (pow2_gt0 n) as Pn. pf (pow2_gt0 d) as Pd.
  destruct (Z.leb_spec (n + W) d) as [DD|DD]; cbn [orb].
  { rewrite Z.mul_0_l, Z.mod_0_l by lia. replace d with ((d - n - W) + W + n) by lia. rewrite !Z.pow_add_r by lia.
    rewrite !Z.mul_assoc, Z.div_mul by lia. rewrite <- B_eq. apply Z.mod_mul. lia. }
  unfold lo. destruct (Z.leb_spec n b) as [G|G].
  { rewrite Z.mul_0_l, Z.mod_0_l by lia. assert (d = 0) by lia. subst d. rewrite Z.pow_0_r, Z.mul_1_r, Z.div_small by lia. apply Z.mod_0_l. lia. }
  rewrite (out_core V nl b gt hi); auto; try lia.
  - destruct (Z_lt_le_dec n d) as [D1|D1].
    + replace b with 0 by lia. rewrite Z.pow_0_r, Z.div_1_r, Z.mul_mod_idemp_l by lia. rewrite Z.max_r by lia.
      f_equal. replace d with ((d - n) + n) at 1 by lia. rewrite Z.pow_add_r, Z.mul_assoc, Z.div_mul by lia. auto.
    + rewrite Z.max_l by lia. rewrite Z.pow_0_r, Z.mul_1_r, Z.mod_mod by lia. f_equal.
      replace n with (b + d) by lia. rewrite Z.pow_add_r by lia. apply Z.div_mul_cancel_r; [pf (pow2_gt0 b); lia|lia].
  - intros G1. unfold gt in G1. apply Z.ltb_lt in G1. lia.
  - intros G1 S0. rewrite EH by auto. unfold e. rewrite G1. unfold gt in G1. apply Z.ltb_ge in G1.
    assert (d <= n). { destruct (Z_lt_le_dec n d); auto. exfalso. apply S0. replace b with 0 by lia. apply Z.mod_0_l; lia. }
    replace e1 with (b + W) by lia. pf (Z.div_mod b W) as DM.
    symmetry. apply (Z.div_unique _ _ _ (b mod W - 1)); lia.
Qed.

Lemma wp_rshift_out : forall a d (Q : Z -> Prop), mp_ok a -> nlimbs a <> 0 -> isu d ->
  Q ((mpval a * B / 2 ^ d) mod B) -> wp (rshift_out a d) Q.
Proof.
  intros a d Q Ha E Hd HQ. unfold rshift_out.
  destruct (nbits_facts a Ha E) as (N1 & N2 & N3 & N4 & N5 & N6 & _). unfold isu in Hd. pose proof W_pos as HW. pose proof B_pos as HB.
  pose proof (mpval_bound a Ha) as BV. rewrite len_nbits in BV. pose proof (mpval_bound_B a Ha) as BV2.
  set (n := 8 * mp_len a) in *. set (nl := nlimbs a) in *. clearbody n.
  assert (U0 : isu 0) by (unfold isu; lia). assert (Un : isu n) by (unfold isu; lia). assert (Ud : isu d) by auto.
  apply wp_bind, wp_lt_usize; [auto|unfold isu; lia|].
  rewrite (sel_u _ (uwsub d W)) by (auto; apply uwsub_isu).
  assert (EB : (if d <? W then 0 else uwsub d W) = Z.max 0 (d - W)).
  { destruct (Z.ltb_spec d W); [lia|]. rewrite (uwsub_ok d W); unfold isu; lia. }
  rewrite EB. set (b0 := Z.max 0 (d - W)) in *. clear EB.
  apply wp_bind, wp_geq_usize; auto; [unfold isu; lia|].
  rewrite (sel_u _ b0 n) by (auto; unfold isu; lia).
  set (ge := n <=? b0) in *. set (b := if ge then n else b0).
  assert (Hb : 0 <= b <= n /\ (ge = false -> b = b0 /\ b0 < n)).
  { unfold b, ge. destruct (Z.leb_spec n b0); split; try lia; discriminate. }
  apply wp_bind, wp_gt_usize; [auto|unfold isu; lia|].
  rewrite (sel_u _ d n) by auto. set (gt := nl * W <? d) in *. set (e := if gt then n else d).
  assert (He : isu e /\ e <= nl * W /\ (0 < d -> 0 < e)).
  { unfold e, gt. destruct (Z.ltb_spec (nl * W) d); unfold isu in *; lia. }
  apply wp_bind, wp_eq_usize; auto.
  apply wp_bind, wp_usub; [lia|]. pf (Z.mod_pos_bound b W) as MB. pf (Z.mod_pos_bound (W - b mod W) W) as MB2.
  rewrite (sel_u _ (b / W) (nl - 1)) by (try (apply udiv_isu); unfold isu; lia).
  rewrite (sel_u _ (uwsub e 1 / W) 0) by (auto; apply udiv_isu; auto; apply uwsub_isu).
  apply wp_bind, wp_lsb_mask; [lia|]. pf (pow2_gt0 (b mod W)) as PP.
  assert (PB : 2 ^ (b mod W) < B) by (unfold B; apply Z.pow_lt_mono_r; lia).
  rewrite lc_select_chc; [|unfold isl; lia|apply isl_0].
  apply wp_bind, wp_load; auto.
  { fold nl. destruct ge eqn:G; [lia|]. split; [apply Z.div_pos; lia|]. apply Z.div_lt_upper_bound; lia. }
  apply wp_bind, wp_lshr; [lia|]. set (lo := if ge then nl - 1 else b / W).
  set (hi := if 0 =? d then 0 else uwsub e 1 / W).
  assert (EH : 0 < d -> hi = (e - 1) / W).
  { intros DD. unfold hi. destruct (Z.eqb_spec 0 d); [lia|]. rewrite uwsub_ok; [auto|]. destruct He as (? & ? & HP). specialize (HP DD). unfold isu in *. lia. }
  apply wp_bind, wp_load; auto.
  { fold nl. destruct (Z.eq_dec d 0) as [DD|DD].
    - unfold hi. subst d. cbn [Z.eqb]. lia.
    - rewrite EH by lia. destruct He as (? & ? & HP). specialize (HP ltac:(lia)). split; [apply Z.div_pos; lia|]. apply Z.div_lt_upper_bound; lia. }
  apply wp_bind, wp_lshl; [lia|]. rewrite lc_or_chc.
  rewrite lc_select_chc; [|apply isl_lor; [apply isl_mod|apply isl_div; [apply limb_isl|lia]]|apply isl_0].
  rewrite (sel_u _ 0 (uwsub W d)) by (auto; apply uwsub_isu).
  assert (ER : (if d <? W then uwsub W d else 0) = Z.max 0 (W - d)).
  { destruct (Z.ltb_spec d W); [|lia]. rewrite uwsub_ok; unfold isu; lia. }
  rewrite ER. rewrite (sel_u _ (Z.max 0 (W - d)) 0) by (auto; unfold isu; lia).
  apply wp_lshl. { destruct (Z.eqb_spec 0 d); lia. }
  rewrite !limb_vlimb. set (V := mpval a) in *.
  match goal with |- Q ?x => replace x with ((V * B / 2 ^ d) mod B); [auto|] end. clear HQ.
  pf (pow2_gt0 n) as Pn. pf (pow2_gt0 d) as Pd.
  destruct (Z.eqb_spec 0 d) as [DD|DD]; cbn [orb].
  { subst d. rewrite Z.mul_0_l, Z.mod_0_l by lia. rewrite Z.pow_0_r, Z.div_1_r. apply Z.mod_mul. lia. }
  assert (SH : W <= d -> V * B / 2 ^ d = V / 2 ^ b0).
  { intros. replace d with (b0 + W) at 1 by lia. rewrite Z.pow_add_r, B_eq by lia. apply Z.div_mul_cancel_r; [pf (pow2_gt0 b0); lia|]. rewrite <- B_eq. lia. }
  unfold lo. destruct ge eqn:G.
  { unfold ge in G. apply Z.leb_le in G. rewrite Z.mul_0_l, Z.mod_0_l by lia. rewrite SH by lia. rewrite Z.div_small; [apply Z.mod_0_l; lia|].
    assert (2 ^ n <= 2 ^ b0) by (apply Z.pow_le_mono_r; lia). lia. }
  destruct Hb as [_ Hb]. destruct (Hb eq_refl) as [Hb1 Hb2].
  rewrite (out_core V nl b gt hi); auto; try lia.
  - rewrite Hb1. destruct (Z_lt_le_dec d W) as [D1|D1].
    + replace b0 with 0 by lia. rewrite Z.pow_0_r, Z.div_1_r, Z.mul_mod_idemp_l by lia. rewrite Z.max_r by lia.
      f_equal. rewrite B_eq. replace W with ((W - d) + d) at 1 by lia. rewrite Z.pow_add_r, Z.mul_assoc, Z.div_mul by lia. auto.
    + rewrite Z.max_l by lia. rewrite Z.pow_0_r, Z.mul_1_r, Z.mod_mod by lia. f_equal. auto.
  - intros G1. unfold gt in G1. apply Z.ltb_lt in G1. lia.
  - intros G1 S0. rewrite EH by lia. unfold e. rewrite G1. unfold gt in G1. apply Z.ltb_ge in G1.
    assert (W <= d). { destruct (Z_lt_le_dec d W); auto. exfalso. apply S0. replace b with 0 by lia. apply Z.mod_0_l; lia. }
    replace d with (b + W) by lia. pf (Z.div_mod b W) as DM.
    symmetry. apply (Z.div_unique _ _ _ (b mod W - 1)); lia.
Qed.

Lemma wp_store_trunc : forall b i v (Q : mp -> Prop), mp_ok b -> 0 <= i < nlimbs b -> isl v ->
  (forall b', mp_ok b' -> same_shape b b' -> mpval b' mod B ^ i = mpval b mod B ^ i -> mpval b' / B ^ (i + 1) = mpval b / B ^ (i + 1) ->
     (forall k, 0 <= k < 8 * mp_len b -> Z.testbit (mpval b') k = if k / W =? i then Z.testbit v (k mod W) else Z.testbit (mpval b) k) -> Q b') ->
  wp (store_trunc b i v) Q.
Proof.
  intros b i v Q Hb Hi Hv HQ. unfold store_trunc. pose proof W_pos as HW. apply wp_mif; intros C.
  - apply negb_true_iff, Z.eqb_neq in C. apply wp_store_full; auto; [lia|apply full_inner; lia|]. intros b' S.
    apply HQ; [apply (store_ok _ _ _ _ S)|apply (store_shape _ _ _ _ S)|eapply store_mod; eauto; lia|eapply store_div; eauto; lia|].
    intros k Hk. apply (store_testbit b b' i v); auto; lia.
  - apply negb_false_iff, Z.eqb_eq in C. replace i with (nlimbs b - 1) in * by lia. clear C.
    apply wp_bind, wp_partial_high_mask; [lia|]. rewrite land_lim by lia. pf (lim_pos b (nlimbs b - 1)) as LP.
    pf (Z.mod_pos_bound v (lim b (nlimbs b - 1))) as MB.
    apply wp_store; auto. intros b' S.
    assert (I : isl (v mod lim b (nlimbs b - 1))) by (unfold isl; lia).
    apply HQ; [apply (store_ok _ _ _ _ S)|apply (store_shape _ _ _ _ S)|eapply store_mod; eauto; lia|eapply store_div; eauto; lia|].
    intros k Hk. rewrite (store_testbit b b' _ _ k Hb (proj1 Hi) I S (proj1 Hk)).
    destruct (Z.eqb_spec (k / W) (nlimbs b - 1)) as [E|E]; auto. pf (Z.div_mod k W) as DM. pf (Z.mod_pos_bound k W) as MK.
    rewrite lim_pow2 by lia. pose proof LB_pos. apply Z.mod_pow2_bits_low. unfold W in *. rewrite E in DM. lia.
Qed.

Lemma vlimb_ext_mod : forall v w m j, v mod B ^ j = w mod B ^ j -> 0 <= m < j -> vlimb v m = vlimb w m.
Proof. intros v w m j H Hm. rewrite <- (limb_of_mod v m j), <- (limb_of_mod w m j) by lia. rewrite H. auto. Qed.
Lemma vlimb_ext_div : forall v w m j, v / B ^ j = w / B ^ j -> 0 <= j <= m -> vlimb v m = vlimb w m.
Proof.
  intros v w m j H Hm. unfold vlimb. pose proof B_pos. replace m with (j + (m - j)) by lia. rewrite Z.pow_add_r by lia.
  pf (Bpow_pos j). pf (Bpow_pos (m - j)). rewrite <- !Z.div_div by lia. rewrite H. auto.
Qed.

Lemma div_ext_S : forall v w i, 0 <= i -> v / B ^ i = w / B ^ i -> v / B ^ (i + 1) = w / B ^ (i + 1).
Proof. intros v w i Hi H. pose proof B_pos. pf (Bpow_pos i). rewrite Z.pow_add_r, Z.pow_1_r, <- !Z.div_div by lia. rewrite H. auto. Qed.

Lemma mp_nlimbs_bits : forall d, 0 <= d -> ct_mp_nlimbs ((d + 7) / 8) = (d + W - 1) / W.
Proof.
  intros d Hd. unfold ct_mp_nlimbs, W. pose proof LB_pos. rewrite <- Z.div_div by (destruct LB_cases; lia). f_equal.
  destruct LB_cases as [E|E]; rewrite E.
  - replace (d + 8 * 4 - 1) with (d + 7 + 3 * 8) by lia. rewrite Z.div_add by lia. lia.
  - replace (d + 8 * 8 - 1) with (d + 7 + 7 * 8) by lia. rewrite Z.div_add by lia. lia.
Qed.

Lemma shape_nbits : forall a b, same_shape a b -> mp_len b = mp_len a /\ nlimbs b = nlimbs a.
Proof. intros a b S. split; [apply shape_len; auto|apply shape_nlimbs; auto]. Qed.

Lemma wp_lshift : forall a d (Q : mp * Z -> Prop), mp_ok a -> isu d ->
  (forall a', becomes a a' ((mpval a * 2 ^ d) mod 256 ^ mp_len a) -> Q (a', (mpval a * 2 ^ d / 256 ^ mp_len a) mod B)) ->
  wp (ct_lshift_mp a d) Q.
Proof.
  intros a d Q Ha Hd HQ. unfold ct_lshift_mp. rewrite empty_nlimbs. apply wp_mif; intros E.
  { apply Z.eqb_eq in E. pose proof (empty_val a Ha E) as EV. apply wp_ret. rewrite EV in HQ. cbn [Z.mul] in HQ.
    pf (p256_pos (mp_len a) (mp_len_nonneg a)). rewrite Z.mod_0_l, Z.div_0_l, Z.mod_0_l in HQ by (pose proof B_pos; lia). apply HQ.
    split; [auto|split; [apply shape_refl|auto]]. }
  apply Z.eqb_neq in E. destruct (nbits_facts a Ha E) as (N1 & N2 & N3 & N4 & N5 & N6 & N7). pose proof W_pos as HW. pose proof B_pos as HB.
  pose proof (mpval_bound a Ha) as BV. rewrite len_nbits in BV.
  apply wp_bind, wp_lshift_out; auto. set (out := (mpval a * 2 ^ d / 256 ^ mp_len a) mod B) in *. clearbody out. rewrite len_nbits in HQ.
  set (n := 8 * mp_len a) in *. set (nl := nlimbs a) in *. set (V := mpval a) in *. unfold isu in Hd.
  assert (Un : isu n) by (unfold isu; lia).
  apply wp_bind, wp_gt_usize; auto. rewrite (sel_u _ d n) by auto.
  set (d1 := if n <? d then n else d). assert (Hd1 : 0 <= d1 <= n) by (unfold d1; destruct (Z.ltb_spec n d); lia).
  assert (HQ1 : forall a', becomes a a' ((V * 2 ^ d1) mod 2 ^ n) -> Q (a', out)).
  { intros a' H. apply HQ. unfold d1 in H. destruct (Z.ltb_spec n d); [|auto]. pf (pow2_gt0 n).
    rewrite Z.mod_mul in H by lia. replace d with ((d - n) + n) by lia. rewrite Z.pow_add_r, Z.mul_assoc, Z.mod_mul by lia. auto. }
  clear HQ Hd. clearbody d1. clear d. rename d1 into d. rewrite mp_nlimbs_bits by lia.
  set (dn := (d + W - 1) / W). set (dh := d mod W).
  pf (Z.mod_pos_bound d W) as Hdh. fold dh in Hdh.
  assert (D : (dh = 0 /\ d = dn * W) \/ (0 < dh /\ d = (dn - 1) * W + dh)).
  { pf (Z.div_mod d W) as DM. fold dh in DM. unfold dn. destruct (Z.eq_dec dh 0) as [E0|E0].
    - left. split; auto. assert ((d + W - 1) / W = d / W); [|lia]. symmetry. apply (Z.div_unique _ _ _ (W - 1)); lia.
    - right. split; [lia|]. assert ((d + W - 1) / W = d / W + 1); [|lia]. symmetry. apply (Z.div_unique _ _ _ (dh - 1)); lia. }
  assert (Hdn : 0 <= dn <= nl).
  { split; [apply Z.div_pos; lia|]. apply Z.lt_succ_r. apply Z.div_lt_upper_bound; lia. }
  assert (U0 : isu 0) by (unfold isu; lia).
  apply wp_bind, wp_eq_usize; [unfold isu; lia|auto|].
  rewrite (sel_u _ (W - dh) 0) by (unfold isu; lia).
  rewrite lc_select_chc; [|rewrite lnot_0; unfold isl; lia|apply isl_0]. rewrite lnot_0.
  set (s := if dh =? 0 then 0 else W - dh).
  assert (Hs : 0 <= s < W) by (unfold s; destruct (Z.eqb_spec dh 0); lia).
  assert (Cb : forall h l, Z.lor ((Z.land h (if dh =? 0 then 0 else B - 1) * 2 ^ dh) mod B) (l / 2 ^ s) = comb s h l).
  { intros. unfold comb, s. destruct (Z.eqb_spec dh 0) as [E0|E0].
    - rewrite E0. auto.
    - destruct (Z.eqb_spec (W - dh) 0); [lia|]. replace (W - (W - dh)) with dh by lia. auto. }
  apply wp_bind, wp_dassert; [apply Z.leb_le; lia|].
  apply wp_bind, wp_eq_usize; [unfold isu; lia|auto|]. rewrite (sel_u _ dn 1) by (unfold isu; lia).
  set (k0 := if dn =? 0 then 1 else dn). assert (Hk0 : 0 < k0 <= nl /\ (0 < dn -> k0 = dn)) by (unfold k0; destruct (Z.eqb_spec dn 0); lia).
  apply wp_bind, wp_usub; [lia|]. apply wp_bind, wp_load; auto; [fold nl; lia|]. rewrite limb_vlimb. fold V.
  apply wp_bind. eapply wp_for_down with (I := fun j '(b, off, last) => mp_ok b /\ same_shape a b /\ off = (if j <? dn then nl else 0) /\
     isl last /\ (0 < dn <= j -> last = vlimb V (j - dn)) /\ mpval b mod B ^ j = V mod B ^ j /\
     (forall k, d <= k -> j * W <= k < n -> Z.testbit (mpval b) k = Z.testbit V (k - d))); [lia| | |].
  - split; [auto|]. split; [apply shape_refl|]. split; [destruct (Z.ltb_spec nl dn); lia|]. split; [apply vlimb_isl|].
    split; [intros H; f_equal; lia|]. split; [auto|]. intros. lia.
  - intros i [[b off] last] Hi (Ob & Sb & Hoff & Il & Hl & Hm & HB1). destruct (shape_nbits _ _ Sb) as [LEN NL]. fold nl in NL.
    apply wp_bind, wp_eq_usize; [unfold isu; lia|unfold isu; lia|].
    rewrite (sel_u _ off nl) by (rewrite ?Hoff; try destruct (_ <? _); unfold isu; lia).
    set (off' := if dn =? i + 1 then nl else off).
    assert (Hoff' : off' = if i <? dn then nl else 0).
    { unfold off'. rewrite Hoff. destruct (Z.eqb_spec dn (i + 1)), (Z.ltb_spec i dn), (Z.ltb_spec (i + 1) dn); auto; lia. }
    clearbody off'. clear Hoff off. assert (Hix : 0 <= i + off' - dn < nl /\ (dn <= i -> i + off' - dn = i - dn)).
    { rewrite Hoff'. destruct (Z.ltb_spec i dn); lia. }
    apply wp_bind, wp_usub; [lia|]. apply wp_bind, wp_load; auto; [lia|]. rewrite limb_vlimb.
    set (lo := vlimb (mpval b) (i + off' - dn)).
    assert (Hlo : dn <= i -> lo = vlimb V (i - dn)).
    { intros H. unfold lo. replace (i + off' - dn) with (i - dn) by lia. eapply vlimb_ext_mod; eauto. lia. }
    assert (Ilo : isl lo) by apply vlimb_isl. clearbody lo.
    apply wp_bind, wp_lshr; auto. apply wp_bind, wp_lshl; auto. rewrite Cb.
    apply wp_bind, wp_store_trunc; auto; [lia|apply comb_isl; auto; lia|]. rewrite LEN. fold n.
    intros b' Ob' Sb' Mb' _ Tb'. apply wp_ret. split; [auto|]. split; [eapply shape_trans; eauto|]. split; [auto|]. split; [auto|].
    split; [intros; apply Hlo; lia|]. split.
    + rewrite Mb'. rewrite <- (mod_mod_pow (mpval b) B i (i + 1)), <- (mod_mod_pow V B i (i + 1)) by lia. rewrite Hm. auto.
    + intros k Hk1 Hk2. assert (0 <= i * W) by (apply mul_nn; lia). rewrite Tb' by lia. pf (Z.div_mod k W) as DM. pf (Z.mod_pos_bound k W) as MK.
      set (q := k / W) in *. set (r := k mod W) in *. clearbody q r. destruct (Z.eqb_spec q i) as [Eq|Eq].
      * subst q. rewrite comb_bit by (auto; lia). unfold s. destruct D as [[D1 D2]|[D1 D2]].
        -- rewrite (proj2 (Z.eqb_eq dh 0)) by auto. destruct (Z.ltb_spec r (W - 0)); [|lia].
           assert (dn <= i). { apply Z.lt_succ_r. apply (mul_lt_cancel W); lia. }
           rewrite Hlo, vlimb_bit by lia. f_equal. lia.
        -- rewrite (proj2 (Z.eqb_neq dh 0)) by lia. destruct (Z.ltb_spec r (W - (W - dh))).
           ++ assert (dn <= i). { apply Z.lt_succ_r. apply (mul_lt_cancel W); lia. }
              rewrite Hlo, vlimb_bit by lia. f_equal. lia.
           ++ assert (dn <= i + 1). { apply Z.lt_succ_r. apply (mul_lt_cancel W); lia. }
              assert (0 < dn). { apply (mul_lt_cancel W); lia. }
              rewrite Hl, vlimb_bit by lia. f_equal. lia.
      * apply HB1; auto. assert (i < q). { assert (i <= q); [|lia]. apply Z.lt_succ_r. apply (mul_lt_cancel W); lia. }
        assert (W * (i + 1) <= W * q) by (apply mul_le_l; lia). lia.
  - intros [[b off] last] (Ob & Sb & _ & _ & _ & _ & HB1). destruct (shape_nbits _ _ Sb) as [LEN NL].
    apply wp_bind, wp_ct_clear_bits_below; auto; [lia|]. intros b' (Ob' & Sb' & Vb'). apply wp_ret, HQ1.
    split; [auto|]. split; [eapply shape_trans; eauto|]. rewrite Vb'. pf (pow2_gt0 d) as PD.
    pose proof (mpval_bound b Ob) as BX. rewrite len_nbits, LEN in BX. fold n in BX. set (X := mpval b) in *.
    replace (X - X mod 2 ^ d) with (X / 2 ^ d * 2 ^ d) by (pose proof (Z_div_mod_eq_full X (2 ^ d)); lia).
    apply Z.bits_inj'. intros k Hk. destruct (Z_lt_le_dec k n) as [L|L].
    + rewrite Z.mod_pow2_bits_low, !Z.mul_pow2_bits by lia. destruct (Z_lt_le_dec k d) as [L2|L2].
      * rewrite !Z.testbit_neg_r by lia. auto.
      * rewrite Z.div_pow2_bits by lia. replace (k - d + d) with k by lia. apply HB1; lia.
    + rewrite Z.mod_pow2_bits_high by lia. rewrite Z.mul_pow2_bits, Z.div_pow2_bits by lia. replace (k - d + d) with k by lia.
      apply (testbit_above X n); auto.
Qed.

Lemma wp_rshift : forall a d (Q : mp * Z -> Prop), mp_ok a -> isu d ->
  (forall a', becomes a a' (mpval a / 2 ^ d) -> Q (a', (mpval a * B / 2 ^ d) mod B)) ->
  wp (ct_rshift_mp a d) Q.
Proof.
  intros a d Q Ha Hd HQ. unfold ct_rshift_mp. rewrite empty_nlimbs. pf (pow2_gt0 d (proj1 Hd)) as PD0. apply wp_mif; intros E.
  { apply Z.eqb_eq in E. pose proof (empty_val a Ha E) as EV. apply wp_ret. rewrite EV in HQ. cbn [Z.mul] in HQ.
    rewrite !Z.div_0_l, Z.mod_0_l in HQ by (pose proof B_pos; lia). apply HQ.
    split; [auto|split; [apply shape_refl|auto]]. }
  apply Z.eqb_neq in E. destruct (nbits_facts a Ha E) as (N1 & N2 & N3 & N4 & N5 & N6 & N7). pose proof W_pos as HW. pose proof B_pos as HB.
  pose proof (mpval_bound a Ha) as BV. rewrite len_nbits in BV.
  apply wp_bind, wp_rshift_out; auto. set (out := (mpval a * B / 2 ^ d) mod B) in *. clearbody out.
  set (n := 8 * mp_len a) in *. set (nl := nlimbs a) in *. set (V := mpval a) in *. unfold isu in Hd.
  assert (Un : isu n) by (unfold isu; lia).
  apply wp_bind, wp_gt_usize; auto. rewrite (sel_u _ d n) by auto.
  set (d1 := if n <? d then n else d). assert (Hd1 : 0 <= d1 <= n) by (unfold d1; destruct (Z.ltb_spec n d); lia).
  assert (HQ1 : forall a', becomes a a' (V / 2 ^ d1) -> Q (a', out)).
  { intros a' H. apply HQ. unfold d1 in H. destruct (Z.ltb_spec n d); [|auto]. pf (pow2_gt0 n).
    assert (2 ^ n <= 2 ^ d) by (apply Z.pow_le_mono_r; lia). rewrite Z.div_small in * by lia. auto. }
  clear HQ Hd PD0. clearbody d1. clear d. rename d1 into d.
  set (dn := d / W). set (s := d mod W).
  pf (Z.mod_pos_bound d W) as Hs. fold s in Hs. pf (Z.div_mod d W) as DM. fold dn s in DM.
  assert (Hdn : 0 <= dn <= nl).
  { split; [apply Z.div_pos; lia|]. apply (mul_le_cancel W); lia. }
  assert (U0 : isu 0) by (unfold isu; lia).
  apply wp_bind, wp_eq_usize; [unfold isu; lia|auto|].
  rewrite (sel_u _ (W - s) 0) by (unfold isu; lia).
  rewrite lc_select_chc; [|rewrite lnot_0; unfold isl; lia|apply isl_0]. rewrite lnot_0.
  set (dh := if s =? 0 then 0 else W - s).
  assert (Hdh : 0 <= dh < W) by (unfold dh; destruct (Z.eqb_spec s 0); lia).
  assert (Cb : forall h l, Z.lor ((Z.land h (if s =? 0 then 0 else B - 1) * 2 ^ dh) mod B) (l / 2 ^ s) = comb s h l) by (intros; reflexivity).
  apply wp_bind, wp_geq_usize; [unfold isu; lia|unfold isu; lia|]. rewrite (sel_u _ 0 nl) by (unfold isu; lia).
  set (off0 := if nl <=? dn then nl else 0).
  assert (Hoff0 : off0 = if dn <? nl then 0 else nl) by (unfold off0; destruct (Z.ltb_spec dn nl), (Z.leb_spec nl dn); auto; lia).
  assert (K0 : 0 <= dn - off0 < nl /\ (dn < nl -> off0 = 0)) by (rewrite Hoff0; destruct (Z.ltb_spec dn nl); lia).
  apply wp_bind, wp_usub; [lia|]. apply wp_bind, wp_load; auto; [fold nl; lia|]. rewrite limb_vlimb. fold V.
  apply wp_bind. eapply wp_for with (I := fun i '(b, off, last) => mp_ok b /\ same_shape a b /\
     off = (if i + dn <? nl then 0 else if i + dn <? 2 * nl then nl else 2 * nl) /\
     isl last /\ (i + dn < nl -> last = vlimb V (i + dn)) /\ mpval b / B ^ i = V / B ^ i /\
     (forall k, 0 <= k < i * W -> k < n - d -> Z.testbit (mpval b) k = Z.testbit V (k + d))); [lia| | |].
  - split; [auto|]. split; [apply shape_refl|]. split.
    { rewrite Hoff0. cbn [Z.add]. destruct (Z.ltb_spec dn nl); auto. destruct (Z.ltb_spec dn (2 * nl)); auto. lia. }
    split; [apply vlimb_isl|]. split; [intros H; f_equal; lia|]. split; [auto|]. intros. lia.
  - intros i [[b off] last] Hi (Ob & Sb & Hoff & Il & Hl & Hm & HB1). destruct (shape_nbits _ _ Sb) as [LEN NL]. fold nl in NL.
    assert (OK1 : 0 <= off <= 2 * nl /\ off <= i + dn + 1 /\ i + dn + 1 - off <= nl).
    { rewrite Hoff. destruct (Z.ltb_spec (i + dn) nl), (Z.ltb_spec (i + dn) (2 * nl)); lia. }
    apply wp_bind, wp_usub; [lia|]. apply wp_bind, wp_eq_usize; [unfold isu; lia|unfold isu; lia|].
    assert (NB : off + nl < 2 ^ UW).
    { rewrite Hoff. pose proof W_cases as WC. pose proof UW_gt. clear - WC N4 N5 N7 N1 N2 Hi Hdn HW H.
      assert (32 * nl <= nl * W) by (destruct WC as [-> | ->]; lia). destruct (i + dn <? nl), (i + dn <? 2 * nl); lia. }
    rewrite (sel_u _ off (off + nl)) by (unfold isu; lia).
    set (off' := if i + dn + 1 - off =? nl then off + nl else off).
    assert (Hoff' : off' = if (i + 1) + dn <? nl then 0 else if (i + 1) + dn <? 2 * nl then nl else 2 * nl).
    { unfold off'. rewrite Hoff. destruct (Z.ltb_spec (i + dn) nl), (Z.ltb_spec (i + dn) (2 * nl)), (Z.ltb_spec (i + 1 + dn) nl), (Z.ltb_spec (i + 1 + dn) (2 * nl));
        match goal with |- context [?x =? ?y] => destruct (Z.eqb_spec x y) end; lia. }
    clearbody off'. clear Hoff OK1 NB off.
    assert (Hix : off' <= i + dn + 1 /\ 0 <= i + dn + 1 - off' < nl /\ (i + 1 + dn < nl -> off' = 0)).
    { rewrite Hoff'. destruct (Z.ltb_spec (i + 1 + dn) nl), (Z.ltb_spec (i + 1 + dn) (2 * nl)); lia. }
    apply wp_bind, wp_usub; [lia|]. apply wp_bind, wp_load; auto; [lia|]. rewrite limb_vlimb.
    set (hi := vlimb (mpval b) (i + dn + 1 - off')).
    assert (Hhi : i + 1 + dn < nl -> hi = vlimb V (i + 1 + dn)).
    { intros H. unfold hi. replace (i + dn + 1 - off') with (i + 1 + dn) by lia. eapply vlimb_ext_div; eauto. lia. }
    assert (Ihi : isl hi) by apply vlimb_isl. clearbody hi.
    apply wp_bind, wp_lshr; auto. apply wp_bind, wp_lshl; auto. rewrite Cb.
    apply wp_bind, wp_store_trunc; auto; [lia|apply comb_isl; auto; lia|]. rewrite LEN. fold n.
    intros b' Ob' Sb' _ Db' Tb'. apply wp_ret. split; [auto|]. split; [eapply shape_trans; eauto|]. split; [auto|]. split; [auto|].
    split; [auto|]. split.
    + rewrite Db'. apply div_ext_S; auto. lia.
    + intros k Hk1 Hk2. rewrite Tb' by lia. pf (Z.div_mod k W) as DK. pf (Z.mod_pos_bound k W) as MK.
      set (q := k / W) in *. set (r := k mod W) in *. clearbody q r. destruct (Z.eqb_spec q i) as [Eq|Eq].
      * subst q. rewrite comb_bit by (auto; lia). destruct (Z.ltb_spec r (W - s)).
        -- assert (i + dn < nl). { apply (mul_lt_cancel W); lia. }
           rewrite Hl, vlimb_bit by lia. f_equal. lia.
        -- assert (i + 1 + dn < nl). { apply (mul_lt_cancel W); lia. }
           rewrite Hhi, vlimb_bit by lia. f_equal. lia.
      * apply HB1; auto. assert (q < i). { assert (q <= i); [|lia]. apply Z.lt_succ_r. apply (mul_lt_cancel W); lia. }
        assert (W * (q + 1) <= W * i) by (apply mul_le_l; lia). lia.
  - intros [[b off] last] (Ob & Sb & _ & _ & _ & _ & HB1). destruct (shape_nbits _ _ Sb) as [LEN NL].
    apply wp_bind, wp_usub; [lia|].
    apply wp_bind, wp_ct_clear_bits_above; auto; [lia|]. intros b' (Ob' & Sb' & Vb'). apply wp_ret, HQ1.
    split; [auto|]. split; [eapply shape_trans; eauto|]. rewrite Vb'. pf (pow2_gt0 d) as PD. fold n.
    apply Z.bits_inj'. intros k Hk. rewrite Z.div_pow2_bits by lia. destruct (Z_lt_le_dec k (n - d)) as [L|L].
    + rewrite Z.mod_pow2_bits_low by lia. apply HB1; lia.
    + rewrite Z.mod_pow2_bits_high by lia. symmetry. apply (testbit_above V n); auto. lia.
Qed.

End Facts.
