(** Facts about euclid_impl.rs (ModelEuclid.v): apply_to_mod_odd_n. *)
From Coq Require Import ZArith List Bool Lia.
Require Import Verif.Spec Verif.Base Verif.Monad Verif.Wp Verif.ModelLimb Verif.LimbFacts Verif.LimbFacts2
  Verif.ModelBuf Verif.SpecBuf Verif.BufFacts Verif.BufFacts2 Verif.BufFacts3 Verif.UpFacts Verif.ModelCmp Verif.CmpFacts
  Verif.ModelAdd Verif.AddFacts Verif.AddFacts2 Verif.ModelMont Verif.MontFacts Verif.ModelEuclid Verif.GcdBound Verif.EuclidFacts Verif.EuclidFacts2 Verif.InvOddFacts.
Import ListNotations.
Open Scope Z_scope.

Section Facts.
Context {c : cfg}.

(** The exact value of a row is [V]; what is represented by its limbs is [R]. *)
Definition rrep (s N V R p : Z) : Prop :=
  0 <= R < B ^ (p + 1) /\ - N < V < 2 * N /\
  (0 <= V -> R = V mod B ^ (p + 1)) /\
  (V < 0 -> exists V', V' = V mod (2 ^ s * B ^ p) - 2 ^ s * B ^ p /\ V <= V' < 0 /\ R = V' + B ^ (p + 1)).

Lemma row_V : forall s U N m, 0 <= s -> 0 < N -> Z.abs U <= 2 ^ s * (N - 1) -> 0 <= m < 2 ^ s -> forall V, 2 ^ s * V = U + m * N -> - N < V < 2 * N.
Proof.
  intros s U N m Hs HN HU Hm V E. pose proof (pow2_gt0 s Hs) as P. pf (mul_nn m N). pf (mul_le_l N m (2 ^ s - 1)).
  split; apply (mul_lt_cancel (2 ^ s)); lia.
Qed.

Lemma div_rng : forall U M K, 0 < M -> Z.abs U < M * K -> - K <= U / M < K.
Proof. intros U M K HM H. split; [apply Z.div_le_lower_bound; lia|apply Z.div_lt_upper_bound; lia]. Qed.

Lemma wp_row_finish : forall a b s X Y N m p L st k (Q : Z * Z -> Prop), 0 <= p -> 0 <= s <= W - 2 -> 0 < N < B ^ (p + 1) ->
  Z.abs (a * X + b * Y) <= 2 ^ s * (N - 1) -> rmod a b s X Y N m p L st k -> 0 <= L < B ^ p ->
  (forall V r, isl r -> 2 ^ s * V = a * X + b * Y + m * N -> rrep s N V (L + r * B ^ p) p -> Q (b2z (V <? 0), r)) ->
  wp (redc_finish_in_twos_complement k (((a * X + b * Y) / B ^ (p + 1)) mod B)) Q.
Proof.
  intros a b s X Y N m p L st k Q Hp Hs HN HU (_ & (XX & HK & HE)) HL HQ. set (U := a * X + b * Y) in *.
  pose proof HK as (_ & Hm & _ & _ & _ & Hl & Hc & EX). pose proof (Bpow_pos p Hp) as P0. pose proof B_gt as BG. pose proof (Bpow_S p Hp) as PS.
  set (P := B ^ p) in *. pose proof (pow2_gt0 s) as Ps. pose proof (pow2_gt0 (W - s)) as Pw. pose proof W_pos as WP.
  assert (EB : B = 2 ^ s * 2 ^ (W - s)) by (apply B_split; lia).
  set (H := U / B ^ (p + 1)). assert (EU : U = U mod B ^ (p + 1) + B ^ (p + 1) * H) by (unfold H; pose proof (Z.div_mod U (B ^ (p + 1))); lia).
  rewrite (Z.mod_small N) in HE by lia. set (T := H + rk_carry k). set (D := rk_last k + 2 ^ (W - s) * T). set (V := L + P * D).
  assert (EV : 2 ^ s * V = U + m * N).
  { rewrite EU. unfold V, D, T. transitivity (2 ^ s * L + P * (2 ^ s * rk_last k + (2 ^ s * 2 ^ (W - s)) * rk_carry k) + P * (2 ^ s * 2 ^ (W - s)) * H); [ring|].
    rewrite <- EB, <- EX, HE, PS. ring. }
  assert (RV : - N < V < 2 * N) by (apply (row_V s U N m); auto; lia).
  assert (DV : D = V / P). { symmetry. apply (div_eq_of _ _ _ L); auto. unfold V. ring. }
  assert (LV : L = V mod P). { symmetry. apply (mod_eq_of _ _ D); auto. unfold V. ring. }
  assert (TD : T = D / 2 ^ (W - s)). { symmetry. apply (div_eq_of _ _ _ (rk_last k)); auto. unfold D. ring. }
  assert (BH := B_pow2_half). assert (P1 : 2 ^ (W - 1) = 2 * 2 ^ (W - 2)) by (rewrite <- Z.pow_succ_r by lia; f_equal; lia). pose proof (pow2_gt0 (W - 2)) as PW2.
  assert (SP : 2 ^ s <= 2 ^ (W - 2)) by (apply Z.pow_le_mono_r; lia).
  assert (HB : - 2 ^ (W - 1) <= H < 2 ^ (W - 1)).
  { assert (PP : 0 < B ^ (p + 1)) by (apply Bpow_pos; lia). pf (mul_le_l (2 ^ s) (N - 1) (B ^ (p + 1))). pf (mul_le_l (B ^ (p + 1)) (2 ^ s) (2 ^ (W - 2))).
    pf (mul_lt_l (B ^ (p + 1)) (2 ^ (W - 2)) (2 ^ (W - 1))). unfold H. apply div_rng; [auto|]. lia. }
  assert (TB : - 2 ^ (W - 1) <= T < 2 ^ (W - 1)).
  { assert (PP : 0 < B ^ (p + 1)) by (apply Bpow_pos; lia).
    assert (E : 2 ^ s * V = B ^ (p + 1) * T + (2 ^ s * (L + P * rk_last k))).
    { unfold V, D. rewrite PS, EB. ring. }
    assert (R : 0 <= 2 ^ s * (L + P * rk_last k) < B ^ (p + 1)).
    { pf (mul_nn P (rk_last k)). pf (mul_le_l P (rk_last k) (2 ^ (W - s) - 1)). split; [apply mul_nn; lia|]. rewrite PS, EB, <- Z.mul_assoc. apply mul_lt_l; lia. }
    assert (V1 : 2 ^ s * V < 2 ^ s * (2 * N)) by (apply mul_lt_l; lia). assert (V2 : 2 ^ s * (- N) < 2 ^ s * V) by (apply mul_lt_l; lia).
    pf (mul_lt_l (2 ^ s) N (B ^ (p + 1))). pf (mul_le_l (B ^ (p + 1)) (2 ^ s) (2 ^ (W - 2))).
    assert (ET : T = (2 ^ s * V) / B ^ (p + 1)) by (symmetry; apply (div_eq_of _ _ _ _ R E)). rewrite ET. apply div_rng; [auto|]. clear ET.
    assert (E2 : B ^ (p + 1) * 2 ^ (W - 1) = 2 * (B ^ (p + 1) * 2 ^ (W - 2))) by (rewrite P1; ring). rewrite E2. clear - V1 V2 F F0 HN Hm. lia. }
  eapply wp_finish2; [exact HK|auto|exact HB|]. cbv zeta. fold T. split; [exact TB|]. set (r0 := rk_last k + (T mod 2 ^ s) * 2 ^ (W - s)). intros I0.
  assert (R0 : r0 = D mod B).
  { symmetry. apply (mod_eq_of _ _ (T / 2 ^ s)); [exact I0|]. unfold D, r0. pose proof (Z.div_mod T (2 ^ s)) as DM. rewrite EB.
    transitivity (rk_last k + 2 ^ (W - s) * (2 ^ s * (T / 2 ^ s) + T mod 2 ^ s)); [rewrite <- DM by lia; auto|ring]. }
  assert (TS : (T <? 0) = (V <? 0)).
  { assert (D0 : D < 0 <-> V < 0). { rewrite DV. split; intros. - apply Z.nle_gt. intros Z0. pose proof (Z.div_pos V P Z0). lia. - apply Z.div_lt_upper_bound; lia. }
    assert (T0 : T < 0 <-> D < 0). { rewrite TD. split; intros. - apply Z.nle_gt. intros Z0. pose proof (Z.div_pos D (2 ^ (W - s)) Z0). lia. - apply Z.div_lt_upper_bound; lia. }
    destruct (Z.ltb_spec T 0), (Z.ltb_spec V 0); auto; lia. }
  rewrite TS. assert (PLE : 2 ^ s <= B) by (apply pow2_le_B; lia). pf (Z.mod_pos_bound r0 (2 ^ s)) as M0.
  assert (I1 : isl (if V <? 0 then r0 mod 2 ^ s + (B - 2 ^ s) else r0)). { destruct (V <? 0); [unfold isl; lia|auto]. }
  apply HQ; [auto|auto|]. set (r := if V <? 0 then r0 mod 2 ^ s + (B - 2 ^ s) else r0) in *. unfold isl in *.
  split. { pf (mul_nn r P). pf (mul_le_l P r (B - 1)). rewrite PS. lia. }
  split; [auto|]. split.
  - intros V0. unfold r. destruct (Z.ltb_spec V 0); [lia|]. rewrite vmod_S by auto. fold P. unfold vlimb. fold P. rewrite <- DV, <- R0, LV at 1. auto.
  - intros V0. unfold r. destruct (Z.ltb_spec V 0); [|lia]. clear r I1.
    assert (DN : D = r0 - B \/ D < - B). { pose proof (Z.div_mod D B) as DM. rewrite <- R0 in DM.
      assert (D / B < 0) by (apply Z.div_lt_upper_bound; [lia|]; rewrite DV; assert (V / P < 0) by (apply Z.div_lt_upper_bound; lia); lia).
      destruct (Z.eq_dec (D / B) (-1)) as [EQ|NE]; [left; rewrite EQ in DM; lia|right]. pf (mul_le_l B (D / B) (-2)). lia. }
    assert (DB : - B <= D). { rewrite DV. apply Z.div_le_lower_bound; [lia|]. lia. }
    destruct DN as [DN|DN]; [|lia]. exists (L + P * (r0 mod 2 ^ s - 2 ^ s)).
    assert (RG : r0 - B <= r0 mod 2 ^ s - 2 ^ s).
    { pose proof (Z.div_mod r0 (2 ^ s)) as DM. assert (r0 / 2 ^ s <= 2 ^ (W - s) - 1). { assert (r0 / 2 ^ s < 2 ^ (W - s)); [|lia]. apply Z.div_lt_upper_bound; lia. }
      pf (mul_le_l (2 ^ s) (r0 / 2 ^ s) (2 ^ (W - s) - 1)). lia. }
    split; [|split; [split|]].
    + fold P. rewrite (Z.mul_comm (2 ^ s) P), mod_mul_split by lia. rewrite <- LV, <- DV.
      assert (DM : D mod 2 ^ s = r0 mod 2 ^ s). { rewrite DN, EB. replace (r0 - 2 ^ s * 2 ^ (W - s)) with (r0 + (- 2 ^ (W - s)) * 2 ^ s) by ring. apply Z.mod_add. lia. }
      rewrite DM. ring.
    + unfold V. rewrite DN. pf (mul_le_l P (r0 - B) (r0 mod 2 ^ s - 2 ^ s)). lia.
    + pf (mul_le_l P (r0 mod 2 ^ s - 2 ^ s) (-1)). lia.
    + rewrite PS. ring.
Qed.

(** Storing limb after limb, the last one cut to the buffer's length. *)
Lemma wp_up_high_masked : forall a V0 i L b v (Q : mp -> Prop), upinv a V0 i L b -> 0 <= i < nlimbs a -> isl v ->
  (forall b', upinv a V0 (i + 1) ((L + v * B ^ i) mod 256 ^ mp_len a) b' -> Q b') -> wp (store_high_masked b i v) Q.
Proof.
  intros a V0 i L b v Q U Hi Hv HQ. unfold store_high_masked. rewrite (upinv_nlimbs _ _ _ _ _ U). pose proof (upinv_L _ _ _ _ _ U) as HL.
  pose proof (Bpow_pos i) as PI. apply wp_mif; intros E; [apply negb_true_iff, Z.eqb_neq in E|apply negb_false_iff, Z.eqb_eq in E].
  - eapply wp_up_store_full; [exact U|lia|apply full_inner; lia|auto|]. intros b' U'. apply HQ. rewrite Z.mod_small; [auto|].
    assert (R : 0 <= L + v * B ^ i < B ^ (i + 1)). { unfold isl in Hv. rewrite Bpow_S by lia. pf (mul_nn v (B ^ i)). pf (mul_le_l (B ^ i) v (B - 1)). lia. }
    assert (B ^ (i + 1) <= 256 ^ mp_len a); [|lia]. rewrite Bpow256 by lia. apply Z.pow_le_mono_r; [lia|]. pose proof (full_inner a i). lia.
  - apply wp_bind. eapply wp_up_mask; [exact U|lia|]. replace i with (nlimbs a - 1) in * by lia. eapply wp_up_store_last; [exact U|lia|auto|]. intros b' U'.
    apply HQ. replace (nlimbs a - 1 + 1) with (nlimbs a) by lia. rewrite <- lim_total by lia. rewrite mod_mul_split by (try apply lim_pos; lia).
    rewrite Z.mod_add, (Z.mod_small L), Z.div_add, (Z.div_small L) by lia. rewrite Z.add_0_l, (Z.mul_comm (B ^ _)). exact U'.
Qed.

Lemma wp_high_shape : forall a V0 i L b, upinv a V0 i L b -> 0 <= L < B ^ i.
Proof. intros a V0 i L b U. apply (upinv_L _ _ _ _ _ U). Qed.

Definition pick (g s : bool) (N : Z) : Z := if g then - N else if s then N else 0.

Lemma len_dvd : forall a, 0 < nlimbs a -> exists t, 0 < t /\ B ^ nlimbs a = 256 ^ mp_len a * t.
Proof.
  intros a H. pose proof (nlimbs_spec a). exists (256 ^ (nlimbs a * LB - mp_len a)). split; [apply p256_pos; lia|].
  rewrite <- Z.pow_add_r by (pose proof (mp_len_nonneg a); lia). rewrite Bpow256 by lia. f_equal. lia.
Qed.
Lemma mod_len : forall a x, 0 < nlimbs a -> (x mod B ^ nlimbs a) mod 256 ^ mp_len a = x mod 256 ^ mp_len a.
Proof. intros a x H. destruct (len_dvd a H) as (t & Ht & E). rewrite E. apply mod_mul_le; [apply p256_pos, mp_len_nonneg|auto]. Qed.

Lemma wp_into_range : forall u n sg g (Q : mp -> Prop), mp_ok u -> mp_ok n -> nlimbs u = nlimbs n -> 0 < nlimbs n -> g && sg = false ->
  (mpval u + pick g sg (mpval n)) mod 256 ^ mp_len u < mpval n ->
  (forall u', becomes u u' ((mpval u + pick g sg (mpval n)) mod 256 ^ mp_len u) -> Q u') ->
  wp (u_i_into_range u (b2z sg) (b2z g) n) Q.
Proof.
  intros u n sg g Q Ou On NN Hn GS LT HQ. unfold u_i_into_range. set (U := mpval u) in *. set (N := mpval n) in *.
  apply wp_bind, (wp_lc_new g); [auto|]. rewrite lc_mask. pose proof isl_0 as I0. pose proof isl_1 as I1. rewrite lc_select_chc by auto.
  apply wp_bind, (wp_lc_new (sg || g)). { destruct sg, g; auto. } rewrite lc_mask.
  pose proof (p256_pos (mp_len u) (mp_len_nonneg u)) as PL.
  apply wp_bind. apply wp_for with (I := fun i '(u', nc, cy) => exists S, upinv u U i (S mod 256 ^ mp_len u) u' /\ 0 <= S < B ^ i /\ (cy = 0 \/ cy = 1) /\ (nc = 0 \/ nc = 1) /\
     exists NV, 0 <= NV < B ^ i /\ NV + B ^ i * nc = (if g then B ^ i - N mod B ^ i else N mod B ^ i) /\ S + B ^ i * cy = U mod B ^ i + (if sg || g then NV else 0)); [lia| | |].
  - exists 0. rewrite Z.mod_0_l by lia. split; [apply upinv_init; auto|]. split; [rewrite Z.pow_0_r; lia|]. split; [auto|]. split; [destruct g; auto|].
    exists 0. rewrite Z.pow_0_r, !Z.mod_1_r. split; [lia|]. split; [destruct g; lia|destruct (sg || g); lia].
  - intros i [[u' nc] cy] Hi (S & UI & HS & Hcy & Hnc & NV & HNV & ENV & ES). pose proof (Bpow_pos i) as Pi. pose proof B_gt as BG.
    apply wp_bind, wp_load; [auto|lia|]. rewrite limb_vlimb. fold N. pose proof (vlimb_isl N i) as IN. pose proof (vlimb_isl U i) as IU.
    rewrite lxor_chc by auto. set (nx := if g then B - 1 - vlimb N i else vlimb N i).
    assert (Inx : isl nx) by (unfold nx, isl in *; destruct g; lia).
    apply wp_bind, wp_add_l; [auto|destruct Hnc as [->| ->]; auto|]. intros nc' nv Hnc' Inv E1.
    apply wp_bind. eapply wp_up_load; [exact UI|lia|lia|]. rewrite land_chc_r by auto.
    apply wp_bind, wp_add_c; [auto|destruct (sg || g); auto|lia|]. intros cy' v Hcy' Iv E2.
    assert (SL : S mod 256 ^ mp_len u = S).
    { apply Z.mod_small. assert (B ^ i <= 256 ^ mp_len u); [|lia]. destruct (Z.eq_dec i 0) as [->|]; [rewrite Z.pow_0_r; lia|].
      rewrite Bpow256 by lia. apply Z.pow_le_mono_r; [lia|]. pose proof (full_inner u (i - 1)). replace (i - 1 + 1) with i in * by lia. lia. }
    rewrite SL in UI. apply wp_bind. eapply wp_up_high_masked; [exact UI|lia|auto|]. intros u2 U2. apply wp_ret.
    exists (S + v * B ^ i). split; [exact U2|]. unfold isl in *. split. { rewrite Bpow_S by lia. pf (mul_nn v (B ^ i)). pf (mul_le_l (B ^ i) v (B - 1)). lia. }
    split; [auto|]. split; [auto|]. exists (NV + nv * B ^ i). split. { rewrite Bpow_S by lia. pf (mul_nn nv (B ^ i)). pf (mul_le_l (B ^ i) nv (B - 1)). lia. }
    rewrite !vmod_S, Bpow_S by lia. set (Pi' := B ^ i) in *. split.
    + transitivity (NV + Pi' * (nv + B * nc')); [ring|]. rewrite <- E1. transitivity (NV + Pi' * nc + Pi' * nx); [ring|]. rewrite ENV. unfold nx. destruct g; ring.
    + transitivity (S + Pi' * (v + B * cy')); [ring|]. rewrite <- E2. transitivity (S + Pi' * cy + Pi' * (vlimb U i + (if sg || g then nv else 0))); [ring|].
      rewrite ES. destruct (sg || g); ring.
  - intros [[u' nc] cy] (S & UI & HS & Hcy & Hnc & NV & HNV & ENV & ES).
    assert (BU : becomes u u' ((U + pick g sg N) mod 256 ^ mp_len u)).
    { assert (EQ : S mod 256 ^ mp_len u = (U + pick g sg N) mod 256 ^ mp_len u).
      { pose proof (mpval_bound_B u Ou) as BU. pose proof (mpval_bound_B n On) as BN. rewrite NN in BU. fold U in BU. fold N in BN. rewrite (Z.mod_small U), (Z.mod_small N) in * by auto.
        rewrite <- (mod_len u (U + _)), NN by lia. f_equal. symmetry. apply (mod_eq_of _ _ (cy - (if sg || g then (if g then 1 - nc else -nc) else 0))); [auto|].
        unfold pick. destruct sg, g; cbn [orb andb] in *; try discriminate; lia. }
      rewrite <- EQ. apply upinv_done with (i := nlimbs n); [auto|exact UI|lia]. }
    destruct BU as (O' & S' & E').
    apply wp_bind, wp_dassert_m.
    { unfold ct_gt_mp_mp. apply wp_bind. apply wp_lt_mp; auto. fold N. rewrite E', (proj2 (Z.ltb_lt _ _)) by auto. apply wp_ret. rewrite lc_unwrap_chc. auto. }
    apply wp_ret. apply HQ. split; [auto|]. auto.
Qed.
End Facts.
