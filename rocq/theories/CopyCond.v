(** What a conditional copy into a longer destination does. *)
From Coq Require Import ZArith List Bool Lia.
Require Import Verif.Spec Verif.Monad Verif.Base Verif.Wp Verif.ModelLimb Verif.LimbFacts Verif.LimbFacts2
  Verif.ModelBuf Verif.SpecBuf Verif.BufFacts Verif.BufFacts2 Verif.BufFacts3 Verif.BufProofs.
Import ListNotations.
Open Scope Z_scope.

Section Facts.
Context {c : cfg}.

(** With the condition set, clear_bytes_above_cond clears the bytes of the first
    limb below the given one and all later limbs. *)
Lemma wp_clear_cond_on : forall b n (Q : mp -> Prop), mp_ok b -> 0 <= n < mp_len b ->
  (forall b', mp_ok b' -> same_shape b b' ->
     mpval b' = mpval b mod B ^ (n / LB) +
                B ^ (n / LB) * (vlimb (mpval b) (n / LB) - vlimb (mpval b) (n / LB) mod 2 ^ (8 * (n mod LB))) -> Q b') ->
  wp (clear_bytes_above_cond b n (chc true)) Q.
Proof.
  intros b n Q Hok Hn HQ. unfold clear_bytes_above_cond.
  pose proof LB_pos as HLB. pose proof B_pos as HB. assert (K0 : 0 <= n / LB) by (apply Z.div_pos; lia).
  pose proof (Z.div_mod n LB). pose proof (Z.mod_pos_bound n LB).
  assert (K : n / LB < nlimbs b). { apply nlimbs_lt; lia. }
  set (k := n / LB) in *. set (r := 8 * (n mod LB)) in *.
  set (x := vlimb (mpval b) k) in *. set (y := x - x mod 2 ^ r) in *.
  assert (R0 : 0 <= r < W) by (unfold r, W; lia).
  assert (Hx : 0 <= x < B) by apply vlimb_isl.
  assert (PR : 0 < 2 ^ r) by (apply Z.pow_pos_nonneg; lia).
  pose proof (Z.mod_pos_bound x (2 ^ r) PR). pose proof (Z.mod_le x (2 ^ r) ltac:(lia) PR).
  assert (Hy : isl y) by (unfold isl, y; lia).
  pose proof (vmod_bound (mpval b) k K0) as VB.
  apply wp_mif; intros E; [apply Z.leb_le in E; lia|]. clear E.
  rewrite lc_select_chc by (rewrite ?lnot_0; try apply isl_0; unfold isl; lia). cbv iota.
  apply wp_bind, wp_load; auto. apply wp_bind, wp_lsb_mask; [lia|].
  rewrite Z.lor_0_r. rewrite land_lnot_mask; [|apply limb_isl|lia]. rewrite limb_vlimb. fold x y.
  apply wp_bind, wp_store; auto.
  { split; [apply Hy|]. eapply Z.le_lt_trans; [|apply (limb_lim b k); auto].
    rewrite limb_vlimb. fold x. unfold y. lia. }
  intros b1 P1. destruct (up_step b b1 (mpval b) (mpval b mod B ^ k) k y) as [E1 R1]; auto.
  { apply vdivmod; auto. }
  destruct P1 as (O1 & S1 & _). pose proof (shape_nlimbs b b1 S1) as SN.
  set (L := mpval b mod B ^ k + y * B ^ k) in *.
  assert (PK : forall i, 0 <= i -> B ^ (k + 1) * B ^ i = B ^ (k + 1 + i)) by (intros; rewrite <- Z.pow_add_r by lia; auto).
  eapply wp_for with (I := fun i b' => mp_ok b' /\ same_shape b b' /\
     mpval b' = L + B ^ i * (mpval b / B ^ i)); [lia|auto| |].
  - intros i b' Hi (O & S & V). assert (LI : 0 <= L < B ^ i).
    { split; [lia|]. eapply Z.lt_le_trans; [apply R1|]. apply Z.pow_le_mono_r; lia. }
    apply wp_bind, wp_load; auto; [rewrite (shape_nlimbs b b') by auto; lia|].
    rewrite Z.land_0_r. apply wp_store; auto.
    { rewrite (shape_nlimbs b b') by auto; lia. }
    { split; [lia|]. unfold lim. rewrite (shape_len b b') by auto. apply p256_pos.
      assert (i * LB < mp_len b) by (apply nlimbs_lt; lia). lia. }
    intros b2 P2. destruct (up_step b' b2 (mpval b) L i 0) as [E2 _]; auto; [lia|apply isl_0|].
    split; [apply P2|split; [eapply shape_trans; [eauto|apply P2]|]]. rewrite E2. lia.
  - intros b' (O & S & V). apply HQ; auto. rewrite V, SN, vdiv_full by (auto; lia). unfold L. lia.
Qed.

(** The value left by a conditional copy of [src] into a longer [dst]. *)
Definition copied_longer (dst src : mp) : Z :=
  let k := mp_len src / LB in
  if mp_len src mod LB =? 0
  then mpval src + (mpval dst / 256 ^ mp_len src) mod B * 256 ^ mp_len src
  else mpval src mod B ^ k.

Lemma wp_copy_from_cond_longer : forall dst src (Q : mp -> Prop), mp_ok dst -> mp_ok src -> mp_len src < mp_len dst ->
  (forall d', mp_ok d' -> same_shape dst d' -> mpval d' = copied_longer dst src -> Q d') ->
  wp (copy_from_cond dst src (chc true)) Q.
Proof.
  intros dst src Q Hd Hs Hl HQ. unfold copy_from_cond.
  pose proof (nlimbs_spec dst) as ND. pose proof (nlimbs_spec src) as NS. pose proof LB_pos as HLB. pose proof B_pos as HB.
  pose proof (mpval_bound src Hs) as VS. pose proof (mp_len_nonneg src) as LS.
  pose proof (mpval_bound dst Hd) as VD.
  assert (SF : mpval src < 256 ^ mp_len dst).
  { eapply Z.lt_le_trans; [apply VS|]. apply Z.pow_le_mono_r; lia. }
  assert (NL : nlimbs src <= nlimbs dst).
  { destruct (Z_le_gt_dec (nlimbs src) (nlimbs dst)); auto. pose proof (mul_LB_lt (nlimbs dst) (nlimbs src)). lia. }
  assert (K0 : 0 <= mp_len src / LB) by (apply Z.div_pos; lia).
  pose proof (Z.div_mod (mp_len src) LB) as DM. pose proof (Z.mod_pos_bound (mp_len src) LB HLB) as MB.
  apply wp_bind, wp_dassert_m.
  { apply wp_bind, wp_find_last_set_byte; auto. apply wp_ret. apply Z.leb_le.
    apply nbytes_le_iff; lia. }
  apply wp_mif; intros E1.
  { apply Z.eqb_eq in E1. assert (Z0 : mp_len src = 0) by lia. rewrite Z0 in VS. rewrite Z.pow_0_r in VS.
    apply wp_clear_cond_on; auto; [lia|]. intros b' O' S' V'. apply HQ; auto. rewrite V'. unfold copied_longer.
    rewrite Z0, Z.div_0_l, Z.mod_0_l by lia. rewrite Z.eqb_refl, vmod_0, !Z.pow_0_r, Z.mod_1_r.
    unfold vlimb. rewrite !Z.pow_0_r, Z.div_1_r. lia. }
  apply Z.eqb_neq in E1. apply wp_mif; intros E2; [apply Z.eqb_eq in E2; lia|]. clear E2.
  replace (Z.min (nlimbs src) (nlimbs dst)) with (nlimbs src) by lia. set (n := nlimbs src) in *.
  set (V := mpval src).
  assert (SEL : forall i, lc_select (chc true) (vlimb (mpval dst) i) (limb src i) = vlimb V i).
  { intros. rewrite lc_select_chc by (apply vlimb_isl || apply limb_isl). reflexivity. }
  apply wp_bind.
  eapply wp_for with (I := fun i d => mp_ok d /\ same_shape dst d /\
     mpval d = V mod B ^ i + B ^ i * (mpval dst / B ^ i)); [lia| | |].
  - split; [auto|split; [apply shape_refl|]]. rewrite vmod_0, vdiv_0, Z.pow_0_r. lia.
  - intros i d Hi (Od & Sd & Vd).
    assert (0 <= V mod B ^ i < B ^ i) by (apply vmod_bound; lia).
    apply wp_bind, wp_load_full; auto; [lia|rewrite (shape_len dst d) by auto; apply nlimbs_full; lia|].
    rewrite (up_limb d (mpval dst) (V mod B ^ i)) by (auto; lia).
    apply wp_bind, wp_load_full; auto; [lia|apply nlimbs_full; lia|]. rewrite SEL.
    apply wp_store_full; auto; [lia| |apply vlimb_isl|].
    { rewrite (shape_len dst d) by auto. apply nlimbs_full. lia. }
    intros d' Hp. split; [apply Hp|split; [eapply shape_trans; [eauto|apply Hp]|]].
    destruct (up_step d d' (mpval dst) (V mod B ^ i) i (vlimb V i)) as [E _];
      auto; [lia|apply vlimb_isl|]. rewrite E, vmod_S by lia. auto.
  - intros d (Od & Sd & Vd).
    assert (0 <= V mod B ^ (n - 1) < B ^ (n - 1)) by (apply vmod_bound; lia).
    apply wp_bind, wp_load; auto; [rewrite (shape_nlimbs dst d) by auto; lia|].
    rewrite (up_limb d (mpval dst) (V mod B ^ (n - 1))) by (auto; lia).
    apply wp_bind, wp_load; auto; [lia|]. rewrite SEL.
    assert (LIM : 0 <= vlimb V (n - 1) < lim dst (n - 1)).
    { split; [apply vlimb_isl|]. destruct (Z_lt_le_dec n (nlimbs dst)).
      - rewrite lim_inner by lia. apply vlimb_isl.
      - replace n with (nlimbs dst) by lia. apply limb_of_small; [|lia]. unfold V; lia. }
    apply wp_bind, wp_dassert_m.
    { destruct (Z.ltb_spec n (nlimbs dst)); [apply wp_ret; auto|].
      pose proof (shape_nlimbs dst d Sd) as SN.
      apply wp_bind, wp_partial_high_mask; [lia|]. apply wp_ret. apply Z.eqb_eq.
      apply land_lnot_lim; [lia|]. rewrite (lim_shape dst d) by auto. replace (nlimbs d) with n by lia. auto. }
    apply wp_bind, wp_store; auto.
    { rewrite (shape_nlimbs dst d) by auto. lia. }
    { rewrite (lim_shape dst d) by auto. auto. }
    intros d1 Hp.
    destruct (up_step d d1 (mpval dst) (V mod B ^ (n - 1)) (n - 1) (vlimb V (n - 1))) as [E _];
      auto; [lia|apply vlimb_isl|].
    rewrite <- vmod_S in E by lia. replace (n - 1 + 1) with n in E by lia.
    assert (VN : V mod B ^ n = V) by (apply vmod_full; auto; lia). rewrite VN in E.
    assert (VU : 0 <= V < B ^ n).
    { rewrite <- VN. apply vmod_bound. lia. }
    destruct Hp as (O1 & S1 & _).
    assert (SD : same_shape dst d1) by (eapply shape_trans; [apply Sd|apply S1]).
    apply wp_clear_cond_on; auto; [rewrite (shape_len dst d1) by auto; lia|].
    intros d2 O2 S2 V2. apply HQ; auto. { eapply shape_trans; [apply SD|auto]. }
    rewrite V2. clear V2. unfold copied_longer. set (k := mp_len src / LB) in *.
    destruct (Z.eqb_spec (mp_len src mod LB) 0) as [E0|E0].
    + rewrite E0 in *. assert (KN : k = n). { unfold n. apply (Z.mul_cancel_r _ _ LB); [lia|]. 
        assert (nlimbs src = k + 0 \/ nlimbs src <= k - 1 \/ nlimbs src >= k + 1) as [->|[C|C]] by lia; [lia| |];
          destruct LB_cases as [EL|EL]; rewrite EL in *; lia. }
      rewrite Z.mul_0_r, Z.pow_0_r, Z.mod_1_r. unfold vlimb. rewrite KN, E.
      rewrite lohi_mod, lohi_div by auto. rewrite Bpow256 by lia. replace (n * LB) with (mp_len src) by lia.
      unfold V. lia.
    + assert (KN : k = n - 1).
      { unfold n. destruct LB_cases as [EL|EL]; rewrite EL in *; lia. }
      rewrite KN. assert (D1 : mpval d1 mod B ^ (n - 1) = V mod B ^ (n - 1)).
      { rewrite E. rewrite <- (mod_mod_pow (V + B ^ n * (mpval dst / B ^ n)) B (n - 1) n) by lia.
        rewrite lohi_mod by auto. auto. }
      assert (X1 : vlimb (mpval d1) (n - 1) = V / B ^ (n - 1)).
      { unfold vlimb. pose proof (Bpow_pos (n - 1) ltac:(lia)).
        rewrite <- mod_div_split by lia. rewrite Z.mul_comm, <- Bpow_S by lia. replace (n - 1 + 1) with n by lia.
        rewrite E, lohi_mod by auto. auto. }
      rewrite D1, X1. replace (8 * (mp_len src mod LB)) with ((mp_len src mod LB) * 8) by lia.
      rewrite (Z.mod_small (V / B ^ (n - 1))); [fold V; lia|].
      pose proof (Bpow_pos (n - 1) ltac:(lia)). split; [apply Z.div_pos; lia|].
      apply Z.div_lt_upper_bound; [lia|]. rewrite Z.mul_comm, Z.pow_mul_r by lia. change (2 ^ 8) with 256.
      rewrite (Z.mul_comm (mp_len src mod LB)) || idtac. rewrite Bpow256 by lia.
      replace ((2 ^ (mp_len src mod LB)) ^ 8) with (256 ^ (mp_len src mod LB)) in *.
      * rewrite <- Z.pow_add_r by lia. replace ((mp_len src mod LB) + (n - 1) * LB) with (mp_len src) by lia. lia.
      * rewrite <- Z.pow_mul_r by lia. rewrite Z.mul_comm, Z.pow_mul_r by lia. auto.
Qed.
End Facts.

Lemma copy_longer_correct : forall (c : cfg) dst src, mp_ok dst -> mp_ok src -> mp_len src < mp_len dst ->
  yields (copy_from_cond dst src (chc true)) (fun d => becomes dst d
    (if mp_len src mod LB =? 0
     then mpval src + (mpval dst / 256 ^ mp_len src) mod B * 256 ^ mp_len src
     else mpval src mod B ^ (mp_len src / LB))).
Proof. intros. apply wp_yields, wp_copy_from_cond_longer; auto. intros. split; auto. Qed.
