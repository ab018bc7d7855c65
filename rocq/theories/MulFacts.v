(** Facts about mul_impl.rs (ModelMul.v): multiplication. *)
From Coq Require Import ZArith List Bool Lia.
Require Import Verif.Spec Verif.Base Verif.Monad Verif.Wp Verif.ModelLimb Verif.LimbFacts Verif.LimbFacts2
  Verif.ModelBuf Verif.SpecBuf Verif.BufFacts Verif.BufFacts2 Verif.BufFacts3 Verif.UpFacts Verif.ModelCmp Verif.CmpFacts
  Verif.ModelAdd Verif.AddFacts Verif.AddFacts2 Verif.ModelMul.
Import ListNotations.
Open Scope Z_scope.

Section Facts.
Context {c : cfg}.

Lemma nlimbs_pow_div : forall a, exists q, B ^ nlimbs a = 256 ^ mp_len a * q.
Proof.
  intros a. exists (256 ^ (nlimbs a * LB - mp_len a)). pose proof (nlimbs_spec a). pose proof (mp_len_nonneg a). pose proof (nlimbs_nonneg a).
  rewrite Bpow256 by auto. rewrite <- Z.pow_add_r by lia. f_equal. lia.
Qed.
Lemma pow_div_total : forall a j, 0 <= j < nlimbs a -> exists q, 256 ^ mp_len a = B ^ j * q.
Proof.
  intros a j Hj. exists (256 ^ (mp_len a - j * LB)). pose proof (nlimbs_lt a j ltac:(lia)). pose proof LB_pos. assert (0 <= j * LB) by (apply mul_nn; lia).
  rewrite Bpow256 by lia. rewrite <- Z.pow_add_r by lia. f_equal. lia.
Qed.
Lemma mod_cong : forall x n, exists t, x mod n = x + n * t.
Proof. intros x n. exists (- (x / n)). pose proof (Z_div_mod_eq_full x n). lia. Qed.
Lemma cong_mod : forall x y n t, 0 <= x < n -> x = y + n * t -> x = y mod n.
Proof. intros x y n t H E. apply Z.mod_unique with (q := - t); [left; auto|lia]. Qed.

Lemma upinv_at : forall a b j, mp_ok b -> same_shape a b -> 0 <= j -> upinv a (mpval b) j (mpval b mod B ^ j) b.
Proof.
  intros a b j Ob Sb Hj. pf (Bpow_pos j). split; [auto|]. split; [auto|]. split; [apply Z.mod_pos_bound; lia|].
  pose proof (Z_div_mod_eq_full (mpval b) (B ^ j)). lia.
Qed.
Lemma upinv_end : forall a V0 L b, mp_ok a -> 0 <= V0 < 256 ^ mp_len a -> upinv a V0 (nlimbs a) L b -> becomes a b L /\ 0 <= L < 256 ^ mp_len a.
Proof.
  intros a V0 L b Ha HV (O & S & HL & E). pose proof (nlimbs_nonneg a).
  assert (L0 : V0 / B ^ nlimbs a = 0).
  { apply Z.div_small. split; [lia|]. destruct (nlimbs_pow_div a) as [q Hq]. pf (Bpow_pos (nlimbs a)) as BP. pf (p256_pos (mp_len a) (mp_len_nonneg a)) as NP.
    rewrite Hq in *. assert (0 < q) by (apply (mul_lt_cancel (256 ^ mp_len a)); lia). pf (mul_le_l (256 ^ mp_len a) 1 q). lia. }
  rewrite L0 in E. pose proof (mpval_bound b O) as MB. rewrite (shape_len a b S) in MB. split; [split; [auto|split; [auto|lia]]|lia].
Qed.

Lemma wp_store_hm : forall a V0 i L b r last mask (Q : mp -> Prop), upinv a V0 i L b -> 0 <= i < nlimbs a -> isl r ->
  last = (i =? nlimbs a - 1) -> mask = lim a (nlimbs a - 1) - 1 ->
  (forall b', upinv a V0 (i + 1) ((L + r * B ^ i) mod 256 ^ mp_len a) b' -> Q b') -> wp (store_hm b last i r mask) Q.
Proof.
  intros a V0 i L b r last mask Q U Hi Hr -> -> HQ. unfold store_hm. rewrite (upinv_unal _ _ _ _ _ U).
  pose proof (upinv_L _ _ _ _ _ U) as HL. pf (Bpow_pos i) as PP. pose proof (mp_len_nonneg a) as La.
  apply wp_mif; intros C.
  - assert (F : (i + 1) * LB <= mp_len a).
    { apply orb_true_iff in C. destruct C as [C|C]; apply negb_true_iff in C; [apply Z.eqb_neq in C; apply full_inner; lia|apply ne_full; auto; lia]. }
    eapply wp_up_store_full; eauto; [lia|]. intros b' U'. apply HQ. rewrite Z.mod_small; auto.
    pose proof (upinv_L _ _ _ _ _ U') as HL'. split; [lia|]. eapply Z.lt_le_trans; [apply HL'|]. rewrite Bpow256 by lia.
    apply Z.pow_le_mono_r; lia.
  - apply orb_false_iff in C. destruct C as [C _]. apply negb_false_iff, Z.eqb_eq in C. subst i.
    eapply wp_up_store_last; eauto; [lia|]. intros b' U'. apply HQ.
    pf (lim_pos a (nlimbs a - 1)). rewrite <- lim_total, hi_mod by lia. replace (nlimbs a - 1 + 1) with (nlimbs a) by lia. auto.
Qed.

(** Storing zero at limb [j]. *)
Lemma store0_val : forall b b' j, mp_ok b -> 0 <= j -> store_post b j 0 b' -> mpval b' = mpval b - vlimb (mpval b) j * B ^ j.
Proof.
  intros b b' j Hb Hj S. pf (Bpow_pos j). pf (Bpow_pos (j + 1)).
  pose proof (store_mod b b' j 0 Hj S) as M1. pose proof (store_div b b' j 0 Hj isl_0 S) as M2.
  assert (ML : vlimb (mpval b') j = 0). { rewrite <- limb_vlimb. apply (store_limb b b' j 0); auto. apply isl_0. }
  rewrite (Z_div_mod_eq_full (mpval b') (B ^ (j + 1))), (Z_div_mod_eq_full (mpval b) (B ^ (j + 1))) at 1.
  rewrite M2, !vmod_S, M1, ML by auto. ring.
Qed.

Lemma in_nlimbs : forall a n, mp_ok a -> 0 <= n <= mp_len a -> 0 <= ct_mp_nlimbs n <= nlimbs a /\ 256 ^ n <= B ^ ct_mp_nlimbs n.
Proof.
  intros a n Ha Hn. pf (ct_mp_nlimbs_spec n) as CS. pose proof (nlimbs_spec a) as NS. pose proof LB_pos.
  assert (0 <= ct_mp_nlimbs n) by (destruct CS as [CS1 CS2]; apply Z.lt_succ_r, (mul_lt_cancel LB); lia).
  split; [split; [auto|]|].
  - apply Z.lt_succ_r, (mul_lt_cancel LB); lia.
  - rewrite Bpow256 by auto. apply Z.pow_le_mono_r; lia.
Qed.

Lemma sel_unit : forall z v k, 0 <= k -> Z.lor (lc_select (chc z) 0 (vlimb v k)) (if k =? 0 then lc_select (chc z) 1 0 else 0) = vlimb (if z then v else 1) k.
Proof.
  intros z v k Hk. pose proof B_gt. rewrite !lc_select_chc by (apply isl_0 || apply isl_1 || apply vlimb_isl). destruct z.
  - destruct (k =? 0); apply Z.lor_0_r.
  - destruct (Z.eqb_spec k 0) as [->|N].
    + unfold vlimb. rewrite Z.pow_0_r, Z.div_1_r, Z.mod_small by lia. auto.
    + symmetry. apply (vlimb_out 1 1); [rewrite Z.pow_1_r; lia|lia].
Qed.

(** Extending a congruence by one limb. *)
Lemma mul_step : forall N L L' P k' r k v0 v0i u X xk Pk Bj t, (exists t, L' = L + r * P + N * t) ->
  L + k * P = v0 + u * X * Bj + N * t -> r + k' * B = v0i + u * xk + k -> P = Bj * Pk ->
  exists t', L' + k' * (P * B) = (v0 + v0i * P) + u * (X + xk * Pk) * Bj + N * t'.
Proof.
  intros N L L' P k' r k v0 v0i u X xk Pk Bj t [s ->] E1 E2 ->. exists (t + s).
  replace (L + r * (Bj * Pk) + N * s + k' * (Bj * Pk * B)) with (L + (r + k' * B) * (Bj * Pk) + N * s) by ring. rewrite E2.
  replace (L + (v0i + u * xk + k) * (Bj * Pk) + N * s) with ((L + k * (Bj * Pk)) + (v0i + u * xk) * (Bj * Pk) + N * s) by ring. rewrite E1. ring.
Qed.

Lemma wp_mul_cond : forall a n b z (Q : mp -> Prop), mp_ok a -> mp_ok b -> 0 <= n <= mp_len a -> 0 < mp_len b ->
  (forall a', becomes a a' ((mpval a mod 256 ^ n * (if z : bool then mpval b else 1)) mod 256 ^ mp_len a) -> Q a') ->
  wp (ct_mul_trunc_cond_mp_mp a n b (chc z)) Q.
Proof.
  intros a n b z Q Ha Hb Hn Lb HQ. unfold ct_mul_trunc_cond_mp_mp. apply wp_bind, wp_dassert; [apply Z.leb_le; lia|].
  rewrite (empty_nlimbs b). pose proof (nlimbs_spec b) as NSb. pose proof LB_pos as HLB. pose proof B_pos as HB.
  assert (Nb : 0 < nlimbs b) by (apply (mul_lt_cancel LB); lia).
  apply wp_mif; intros E; [apply Z.eqb_eq in E; lia|]. clear E.
  destruct (Z.eq_dec (mp_len a) 0) as [Z0|Z0].
  { assert (EN : nlimbs a = 0). { unfold nlimbs. rewrite Z0. apply ct_mp_nlimbs_unique; lia. }
    assert (n = 0) by lia. subst n. apply wp_bind, wp_partial_high_mask_any. intros m. apply wp_bind, wp_clear_above; [auto|lia|]. intros b' CA.
    rewrite (ct_mp_nlimbs_unique 0 0) by lia. cbv beta delta [zfor_down]. cbn.
    apply wp_ret. apply HQ. destruct CA as (O & S & V). split; [auto|]. split; [auto|].
    rewrite V, Z0. rewrite Z.mod_1_r, Z.mod_1_r. auto. }
  pose proof (mp_len_nonneg a) as La. pose proof (nlimbs_spec a) as NSa. assert (Na : 0 < nlimbs a) by (apply (mul_lt_cancel LB); lia).
  apply wp_bind, wp_partial_high_mask; auto. apply wp_bind, wp_clear_above; [auto|lia|]. intros a1 (O1 & S1 & V1).
  set (A := mpval a mod 256 ^ n) in *. set (x := if z then mpval b else 1) in *. set (N := 256 ^ mp_len a) in *. set (nl := nlimbs a) in *.
  pf (p256_pos (mp_len a) La) as NP. fold N in NP. destruct (in_nlimbs a n Ha Hn) as [IN IL]. fold nl in IN. pf (p256_pos n (proj1 Hn)) as P256.
  pf (Z.mod_pos_bound (mpval a) (256 ^ n)) as HA. fold A in HA.
  assert (Hx : 0 <= x < B ^ nlimbs b).
  { unfold x. destruct z; [apply mpval_bound_B; auto|]. pf (Z.pow_le_mono_r B 1 (nlimbs b)). rewrite Z.pow_1_r in *. pose proof B_gt. lia. }
  eapply wp_for_down with (I := fun j b' => mp_ok b' /\ same_shape a b' /\ mpval b' mod B ^ j = A mod B ^ j /\
      exists t, mpval b' = A mod B ^ j + x * (A / B ^ j) * B ^ j + N * t); [lia| | |].
  - split; [auto|]. split; [auto|]. rewrite V1. split; [auto|]. exists 0. rewrite Z.mod_small, Z.div_small by lia. lia.
  - intros j b1 Hj (O & S & Mj & t & E). assert (Hjl : 0 <= j < nl) by lia. pose proof (shape_nlimbs _ _ S) as NL. fold nl in NL.
    pf (Bpow_pos j) as Pj. pf (Bpow_pos (j + 1)) as Pj1.
    apply wp_bind, wp_load; auto; [lia|]. rewrite limb_vlimb.
    assert (EU : vlimb (mpval b1) j = vlimb A j). { rewrite <- (limb_of_mod (mpval b1) j (j + 1)), <- (limb_of_mod A j (j + 1)) by lia. rewrite Mj. auto. }
    rewrite EU. pose proof (vlimb_isl A j) as Iu. set (u := vlimb A j) in *.
    apply wp_bind, wp_store; auto; [lia|pf (lim_pos b1 j); lia|]. intros b2 S2.
    pf (store0_val b1 b2 j O (proj1 Hjl) S2) as V2. rewrite EU in V2. fold u in V2.
    assert (O2 : mp_ok b2) by apply S2. assert (SH2 : same_shape a b2) by (eapply shape_trans; [eauto|apply S2]).
    pose proof (mpval_bound b2 O2) as B2. rewrite (shape_len _ _ SH2) in B2. fold N in B2.
    pose proof (upinv_at a b2 j O2 SH2 (proj1 Hjl)) as U0. set (V0 := mpval b2) in *.
    assert (M2 : V0 mod B ^ j = A mod B ^ j).
    { unfold V0. rewrite (store_mod b1 b2 j 0) by (auto; lia). rewrite <- (mod_mod_pow (mpval b1) B j (j + 1)), <- (mod_mod_pow A B j (j + 1)) by lia. rewrite Mj. auto. }
    clearbody V0. clear S2.
    apply wp_bind, wp_usub; [lia|]. apply wp_bind.
    assert (FIN : forall bb, becomes a bb ((V0 + u * x * B ^ j) mod N) ->
       mp_ok bb /\ same_shape a bb /\ mpval bb mod B ^ j = A mod B ^ j /\ exists t, mpval bb = A mod B ^ j + x * (A / B ^ j) * B ^ j + N * t).
    { intros bb (Obb & Sbb & Vbb). split; [auto|]. split; [auto|]. split.
      - rewrite Vbb. destruct (pow_div_total a j Hjl) as [q Hq]. fold N in Hq. assert (0 < q) by (apply (mul_lt_cancel (B ^ j)); lia).
        rewrite Hq, mod_mul_le by lia. rewrite Z.mod_add by lia. auto.
      - rewrite Vbb, V2, E. destruct (mod_cong (A mod B ^ (j + 1) + x * (A / B ^ (j + 1)) * B ^ (j + 1) + N * t - u * B ^ j + u * x * B ^ j) N) as [t' Ht].
        exists (t + t'). rewrite Ht. rewrite (vmod_S A j), (vdiv_S A j), (Bpow_S j) by lia. fold u. ring. }
    set (rn := nl - j) in *. set (mask := lim a (nl - 1) - 1).
    set (inv := fun k (b' : mp) carry => exists L, upinv a V0 (j + k) L b' /\ isl carry /\ exists t, L + carry * B ^ (j + k) = V0 mod B ^ (j + k) + u * (x mod B ^ k) * B ^ j + N * t).
    assert (DONE : forall b' carry, inv rn b' carry -> becomes a b' ((V0 + u * x * B ^ j) mod N)).
    { intros b' carry (L & U & _ & t' & E'). unfold rn in *. replace (j + (nl - j)) with nl in * by lia.
      destruct (upinv_end a V0 L b' Ha B2 U) as [BE' HL]. fold N in HL. enough (EL : L = (V0 + u * x * B ^ j) mod N) by (rewrite <- EL; auto).
      destruct (nlimbs_pow_div a) as [q Hq]. fold nl N in Hq.
      destruct (mod_cong V0 (B ^ nl)) as [t1 T1]. destruct (mod_cong x (B ^ (nl - j))) as [t2 T2].
      assert (HP : B ^ nl = B ^ (nl - j) * B ^ j) by (rewrite <- Z.pow_add_r by lia; f_equal; lia).
      apply (cong_mod _ _ _ (q * t1 + u * q * t2 + t' - carry * q)); auto.
      rewrite T1, T2 in E'. replace (u * (x + B ^ (nl - j) * t2) * B ^ j) with (u * x * B ^ j + u * t2 * B ^ nl) in E' by (rewrite HP; ring).
      rewrite Hq in E'. replace L with (L + carry * (N * q) - carry * (N * q)) by ring. rewrite E'. ring. }
    eapply wp_for with (I := fun k '(b', carry, cu) => inv k b' carry /\ cu = (if k =? 0 then lc_select (chc z) 1 0 else 0)).
    + lia.
    + split; [|auto]. exists (V0 mod B ^ j). rewrite Z.add_0_r. split; [auto|]. split; [apply isl_0|]. exists 0. rewrite Z.pow_0_r, Z.mod_1_r. ring.
    + intros k [[b3 carry] cu] Hk ((L & U & Ic & t' & E') & ->).
      apply wp_bind, wp_load; auto; [lia|]. rewrite limb_vlimb. rewrite sel_unit by lia. fold x.
      apply wp_bind. eapply wp_up_load; eauto; [lia|fold nl; lia|].
      apply wp_bind, wp_mul_add; auto; try apply vlimb_isl. intros h r Ih Ir Er.
      apply wp_bind, wp_usub; [lia|].
      apply wp_bind. eapply wp_store_hm; eauto; [fold nl; lia|fold nl; unfold rn; destruct (Z.eqb_spec k (nl - j - 1)), (Z.eqb_spec (j + k) (nl - 1)); auto; lia|].
      intros b4 U4. fold N in U4. apply wp_ret. split; [|destruct (Z.eqb_spec (k + 1) 0); auto; lia].
      eexists. replace (j + (k + 1)) with (j + k + 1) by lia. split; [apply U4|]. split; [auto|].
      rewrite (vmod_S V0 (j + k)), (vmod_S x k), (Bpow_S (j + k)), (Z.mul_comm B (B ^ (j + k))) by lia.
      eapply mul_step; [apply mod_cong|apply E'|lia|apply Z.pow_add_r; lia].
    + intros [[b3 carry] cu] (I3 & _). destruct (Z_le_gt_dec (nlimbs b) rn) as [C|C].
      * rewrite Z.min_l in I3 by lia. apply wp_bind.
        eapply wp_for with (I := fun k '(b', carry) => inv k b' carry); [lia|auto| |].
        -- intros k [b4 carry4] Hk (L & U & Ic & t' & E'). apply wp_bind. eapply wp_up_load; eauto; [lia|fold nl; lia|].
           apply wp_bind, wp_add_l; auto; try apply vlimb_isl. intros h r Hh Ir Er. apply wp_bind, wp_usub; [lia|].
           apply wp_bind. eapply wp_store_hm; eauto; [fold nl; lia|fold nl; unfold rn; destruct (Z.eqb_spec k (nl - j - 1)), (Z.eqb_spec (j + k) (nl - 1)); auto; lia|].
           intros b5 U5. fold N in U5. apply wp_ret.
           eexists. replace (j + (k + 1)) with (j + k + 1) by lia. split; [apply U5|]. split; [destruct Hh as [->| ->]; [apply isl_0|apply isl_1]|].
           rewrite (vmod_S V0 (j + k)), (vmod_S x k), (Bpow_S (j + k)), (Z.mul_comm B (B ^ (j + k))) by lia.
           rewrite (vlimb_out x (nlimbs b) k) by lia.
           eapply mul_step; [apply mod_cong|apply E'|lia|apply Z.pow_add_r; lia].
        -- intros [b4 carry4] I4. apply wp_ret, FIN. eauto.
      * rewrite Z.min_r in I3 by lia. apply wp_bind, wp_for_empty; [lia|]. apply wp_ret, FIN. eauto.
  - intros b1 (O & S & _ & t & E). apply HQ. split; [auto|]. split; [auto|].
    pose proof (mpval_bound b1 O) as BB. rewrite (shape_len _ _ S) in BB. fold N in BB.
    rewrite Z.pow_0_r, Z.mod_1_r, Z.div_1_r in E. apply (cong_mod _ _ _ t); auto. lia.
Qed.

End Facts.
