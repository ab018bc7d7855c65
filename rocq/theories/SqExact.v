(** Squaring without debug assertions: what happens if a carry gets lost. *)
From Coq Require Import ZArith List Bool Lia.
Require Import Verif.Spec Verif.Base Verif.Monad Verif.Wp Verif.ModelLimb Verif.LimbFacts Verif.LimbFacts2
  Verif.ModelBuf Verif.SpecBuf Verif.BufFacts Verif.BufFacts2 Verif.BufFacts3 Verif.UpFacts Verif.ModelCmp Verif.CmpFacts
  Verif.ModelAdd Verif.AddFacts Verif.AddFacts2 Verif.ModelMul Verif.SpecMul Verif.MulFacts Verif.MulFacts2 Verif.Wx Verif.BufProofs.
Import ListNotations.
Open Scope Z_scope.

Section Facts.
Context {c : cfg}.

Lemma wp_double_rel : forall lph carry (Q : Z * Z -> Prop), debug c = false -> 0 <= lph <= B - 2 -> 0 <= carry <= 4 -> (carry <= 2 \/ lph <= B - 3) ->
  (forall c0 s lo, (c0 = 0 \/ c0 = 1) -> 0 <= s <= B - 1 -> (c0 = 1 -> s <= B - 2) -> (lo = 0 \/ lo = 1) -> (lo = 0 <-> double_ok lph (2 * lph + carry)) ->
     2 * lph + carry = c0 * B + s + lo * B -> Q (c0, s)) ->
  wp (square_double lph carry) Q.
Proof.
  intros lph carry Q D Hl Hc Hlc HQ. unfold square_double. pose proof W_pos as HW. pose proof B_gt as HB. pose proof B_pow2_half as BH.
  unfold double_ok in *. rewrite D in HQ.
  set (H := 2 ^ (W - 1)) in *.
  apply wp_bind, wp_sub32; [lia|]. apply wp_bind, wp_lshr; [lia|]. fold H. unfold lwmul.
  assert (C : (lph < H /\ lph / H = 0 /\ (lph * 2) mod B = 2 * lph) \/ (H <= lph /\ lph / H = 1 /\ (lph * 2) mod B = 2 * lph - B)).
  { destruct (Z_lt_le_dec lph H).
    - left. split; [auto|]. split; [apply Z.div_small; lia|rewrite Z.mod_small; lia].
    - right. split; [auto|]. split; [symmetry; apply (Z.div_unique lph H 1 (lph - H)); lia|symmetry; apply (Z.mod_unique _ _ 1); lia]. }
  set (c0 := lph / H) in *. set (d := (lph * 2) mod B) in *. clearbody c0 d.
  unfold dassert. rewrite D. apply wp_bind, wp_ret, wp_bind, wp_ret.
  destruct (Z_lt_le_dec (d + carry) B) as [X|X].
  - apply wp_bind, wp_ladd; [lia|]. apply wp_ret. apply (HQ c0 (d + carry) 0); lia.
  - assert (LA : ladd d carry = ret (d + carry - B)).
    { unfold ladd, ovf. fold B. replace ((0 <=? d + carry) && (d + carry <? B)) with false; [|symmetry; apply andb_false_iff; right; apply Z.ltb_ge; lia].
      rewrite D. f_equal. symmetry. apply (Z.mod_unique _ _ 1); lia. }
    rewrite LA. apply wp_bind, wp_ret, wp_ret. apply (HQ c0 (d + carry - B) 1); lia.
Qed.

(** [E] is what has been lost, the least significant loss at most [M] times. *)
Definition lost (nl M E : Z) : Prop := exists p m x, 0 <= p < nl /\ 1 <= m <= M /\ E = B ^ p * (m + B * x).
Lemma lost_mono : forall nl M M' E, lost nl M E -> M <= M' -> lost nl M' E.
Proof. intros nl M M' E (p & m & x & H1 & H2 & H3) HM. exists p, m, x. split; [auto|]. split; [lia|auto]. Qed.
Lemma lost_add : forall nl M E F, lost nl M E -> lost nl 1 F -> lost nl (M + 1) (E + F).
Proof.
  intros nl M E F (p & m & x & H1 & H2 & ->) (q & n & y & H3 & H4 & ->). assert (n = 1) by lia. subst n.
  destruct (Z.lt_trichotomy p q) as [H|[H|H]].
  - exists p, m, (x + B ^ (q - p - 1) * (1 + B * y)). split; [auto|]. split; [lia|].
    replace q with (p + 1 + (q - p - 1)) at 1 by lia. rewrite !Z.pow_add_r, Z.pow_1_r by lia. ring.
  - subst q. exists p, (m + 1), (x + y). split; [auto|]. split; [lia|]. ring.
  - exists q, 1, (y + B ^ (p - q - 1) * (m + B * x)). split; [auto|]. split; [lia|].
    replace p with (q + 1 + (p - q - 1)) at 1 by lia. rewrite !Z.pow_add_r, Z.pow_1_r by lia. ring.
Qed.

Lemma wp_square_release : forall a n (Q : mp -> Prop), debug c = false -> mp_ok a -> 0 <= n <= mp_len a ->
  (forall a' E, becomes a a' ((mpval a mod 256 ^ n * (mpval a mod 256 ^ n) - E) mod 256 ^ mp_len a) ->
     let fine := forall j k, 0 < k <= j -> j + k + 1 < nlimbs a ->
       double_ok (vlimb (mpval a mod 256 ^ n) (k - 1) * vlimb (mpval a mod 256 ^ n) j / B) (square_carry (mpval a mod 256 ^ n) j k) in
     (E = 0 /\ fine) \/ (lost (nlimbs a) (ct_mp_nlimbs n) E /\ ~ fine) -> Q a') ->
  wp (ct_square_trunc_mp a n) Q.
Proof.
  intros a n Q D Ha Hn HQ. unfold ct_square_trunc_mp. apply wp_bind, wp_dassert; [apply Z.leb_le; lia|].
  pose proof LB_pos as HLB. pose proof B_gt as HB. pose proof (mp_len_nonneg a) as La.
  destruct (Z.eq_dec (mp_len a) 0) as [Z0|Z0].
  { assert (EN : nlimbs a = 0). { unfold nlimbs. rewrite Z0. apply ct_mp_nlimbs_unique; lia. }
    assert (n = 0) by lia. subst n. xb; apply wp_partial_high_mask_any. intros m. xb; apply wp_clear_above; [auto|lia|]. intros b' CA.
    rewrite (ct_mp_nlimbs_unique 0 0) by lia. cbv beta delta [zfor_down]. cbn.
    xr. apply (HQ _ 0); [|left; split; [auto|intros j k H1 H2; lia]]. destruct CA as (O & S & V). split; [auto|]. split; [auto|].
    rewrite V, Z0. rewrite !Z.mod_1_r. auto. }
  pose proof (nlimbs_spec a) as NSa. assert (Na : 0 < nlimbs a) by (apply (mul_lt_cancel LB); lia).
  xb; apply wp_partial_high_mask; auto. xb; apply wp_clear_above; [auto|lia|]. intros a1 (O1 & S1 & V1).
  set (A := mpval a mod 256 ^ n) in *. set (N := 256 ^ mp_len a) in *. set (nl := nlimbs a) in *.
  pf (p256_pos (mp_len a) La) as NP. fold N in NP. destruct (in_nlimbs a n Ha Hn) as [IN IL]. fold nl in IN. pf (p256_pos n (proj1 Hn)) as P256.
  pf (Z.mod_pos_bound (mpval a) (256 ^ n)) as HA. fold A in HA.
  set (FINE := forall j k, 0 < k <= j -> j + k + 1 < nl -> double_ok (vlimb A (k - 1) * vlimb A j / B) (square_carry A j k)).
  set (n0 := ct_mp_nlimbs n) in *.
  set (DN := fun j => forall j' k, j <= j' -> 0 < k <= j' -> j' + k + 1 < nl -> double_ok (vlimb A (k - 1) * vlimb A j' / B) (square_carry A j' k)).
  eapply wp_for_down with (I := fun j b' => mp_ok b' /\ same_shape a b' /\ mpval b' mod B ^ j = A mod B ^ j /\
      exists t E, mpval b' = A mod B ^ j + A * A - A mod B ^ j * (A mod B ^ j) - E + N * t /\ ((E = 0 /\ DN j) \/ (lost nl (n0 - j) E /\ ~ FINE))); [lia| | |].
  - split; [auto|]. split; [auto|]. rewrite V1. split; [auto|]. exists 0, 0. split; [rewrite Z.mod_small by lia; lia|]. left. split; [auto|].
    { intros j' k H1 H2 H3. assert (Z0A : vlimb A j' = 0) by (apply (vlimb_out A n0); lia). rewrite Z0A, Z.mul_0_r, Z.div_0_l by lia.
      assert (C0 : square_carry A j' k = 0).
      { unfold square_carry, limb_at. fold (vlimb A j'). rewrite Z0A. rewrite (Z.mod_small A (B ^ (j' + 1))).
        - rewrite Z.sub_diag, Z.mod_0_l by (pf (Bpow_pos (j' + k)); lia). rewrite Z.mul_0_r. cbn [Z.mul Z.add]. apply Z.div_0_l. pf (Bpow_pos (j' + k)); lia.
        - split; [lia|]. apply Z.lt_le_trans with (B ^ n0); [lia|]. apply Z.pow_le_mono_r; lia. }
      rewrite C0. clear - HB D. unfold double_ok. rewrite D. lia. }
  - intros j b1 Hj (O & S & Mj & t & Ej & E & EST). assert (Hjl : 0 <= j < nl) by lia. pose proof (shape_nlimbs _ _ S) as NL. fold nl in NL.
    pf (Bpow_pos j) as Pj. pf (Bpow_pos (j + 1)) as Pj1.
    xb; apply wp_load; auto; [lia|]. rewrite limb_vlimb.
    assert (EU : vlimb (mpval b1) j = vlimb A j). { rewrite <- (limb_of_mod (mpval b1) j (j + 1)), <- (limb_of_mod A j (j + 1)) by lia. rewrite Mj. auto. }
    rewrite EU. pose proof (vlimb_isl A j) as Iu.
    set (u := vlimb A j) in *.
    xb; apply wp_store; auto; [lia|pf (lim_pos b1 j); lia|]. intros b2 S2.
    pf (store0_val b1 b2 j O (proj1 Hjl) S2) as V2. rewrite EU in V2. fold u in V2.
    assert (O2 : mp_ok b2) by apply S2. assert (SH2 : same_shape a b2) by (eapply shape_trans; [eauto|apply S2]).
    pose proof (mpval_bound b2 O2) as B2. rewrite (shape_len _ _ SH2) in B2. fold N in B2.
    pose proof (upinv_at a b2 j O2 SH2 (proj1 Hjl)) as U0. set (V0 := mpval b2) in *.
    assert (M2 : V0 mod B ^ j = A mod B ^ j).
    { unfold V0. rewrite (store_mod b1 b2 j 0) by (auto; lia). rewrite <- (mod_mod_pow (mpval b1) B j (j + 1)), <- (mod_mod_pow A B j (j + 1)) by lia. rewrite Mj. auto. }
    clearbody V0. clear S2.
    xb; apply wp_usub; [lia|]. xb.
    destruct (pow_div_total a j Hjl) as [qj Hqj]. fold N in Hqj. assert (Pq : 0 < qj) by (apply (mul_lt_cancel (B ^ j)); lia).
    set (l := A mod B ^ j) in *.
    assert (FIN : forall bb F, becomes a bb ((V0 + 2 * u * l * B ^ j + u * u * B ^ j * B ^ j - F) mod N) -> (exists y, F = y * B ^ j) ->
       ((F = 0 /\ (Ej = 0 -> forall k, 0 < k <= j -> j + k + 1 < nl -> double_ok (vlimb A (k - 1) * u / B) (square_carry A j k))) \/
        (lost nl 1 F /\ (Ej = 0 -> DN (j + 1) -> ~ FINE))) ->
       mp_ok bb /\ same_shape a bb /\ mpval bb mod B ^ j = l /\
       exists t E, mpval bb = l + A * A - l * l - E + N * t /\ ((E = 0 /\ DN j) \/ (lost nl (n0 - j) E /\ ~ FINE))).
    { intros bb F (Obb & Sbb & Vbb) [y Hy] FST. split; [auto|]. split; [auto|]. split.
      - rewrite Vbb. rewrite Hqj, mod_mul_le by lia. rewrite Hy. replace (V0 + 2 * u * l * B ^ j + u * u * B ^ j * B ^ j - y * B ^ j) with (V0 + (2 * u * l + u * u * B ^ j - y) * B ^ j) by ring.
        rewrite Z.mod_add by lia. auto.
      - destruct (mod_cong (V0 + 2 * u * l * B ^ j + u * u * B ^ j * B ^ j - F) N) as [t' Ht]. exists (t + t'), (Ej + F). split.
        { rewrite Vbb, Ht, V2, E. rewrite (vmod_S A j) by lia. fold u l. ring. }
        destruct EST as [[EE DD]|[LE NF]].
        + destruct FST as [[FF DK]|[LF NF]].
          * left. split; [lia|]. intros j' k H1 H2 H3. destruct (Z.eq_dec j' j) as [->|NJ]; [apply DK; auto|]. apply DD; auto; lia.
          * right. split; [|apply NF; auto]. rewrite EE. cbn [Z.add]. eapply lost_mono; [exact LF|lia].
        + right. split; [|auto]. destruct FST as [[FF _]|[LF _]].
          * rewrite FF, Z.add_0_r. eapply lost_mono; [exact LE|lia].
          * replace (n0 - j) with (n0 - (j + 1) + 1) by lia. apply lost_add; auto. }
    set (rn := nl - j) in *. set (mask := lim a (nl - 1) - 1).
    assert (LASTK : forall k, (k =? rn - 1) = (j + k =? nl - 1)) by (intros k; unfold rn; destruct (Z.eqb_spec k (nl - j - 1)), (Z.eqb_spec (j + k) (nl - 1)); auto; lia).
    assert (ENDM : forall L X K t', 0 <= L < N -> L + K * B ^ nl = V0 mod B ^ nl + X + N * t' -> L = (V0 + X) mod N).
    { intros L X K t' HL E'. destruct (nlimbs_pow_div a) as [q Hq]. fold nl N in Hq. destruct (mod_cong V0 (B ^ nl)) as [t1 T1].
      rewrite T1, Hq in E'. apply (cong_mod _ _ _ (q * t1 + t' - K * q)); auto. lia. }
    set (FS := fun k F => (F = 0 /\ (Ej = 0 -> forall k', 0 < k' < k -> j + k' + 1 < nl -> double_ok (vlimb A (k' - 1) * u / B) (square_carry A j k'))) \/
      (exists p x, j < p <= j + k /\ p < nl /\ F = B ^ p * (1 + B * x) /\ (Ej = 0 -> DN (j + 1) -> ~ FINE))).
    set (inv := fun k (b' : mp) K => exists L F, upinv a V0 (j + k) L b' /\ L mod B ^ j = l /\ FS k F /\
      exists t, L + K * B ^ (j + k) = V0 mod B ^ (j + k) - F + 2 * u * (A mod B ^ k) * B ^ j + N * t /\ (j + k < nl -> t = 0)).
    assert (FSM : forall k F, 0 <= k -> FS k F -> exists y, F = y * B ^ j).
    { intros k F Hk [[-> _]|(p & x & Hp & _ & -> & _)]; [exists 0; ring|]. exists (B ^ (p - j) * (1 + B * x)).
      replace (B ^ p) with (B ^ (p - j) * B ^ j) by (rewrite <- Z.pow_add_r by lia; f_equal; lia). ring. }
    assert (FSF : forall k F, 0 <= k -> FS k F -> (Ej = 0 -> F = 0 -> forall k', k <= k' -> 0 < k' <= j -> j + k' + 1 < nl -> double_ok (vlimb A (k' - 1) * u / B) (square_carry A j k')) ->
       (F = 0 /\ (Ej = 0 -> forall k, 0 < k <= j -> j + k + 1 < nl -> double_ok (vlimb A (k - 1) * u / B) (square_carry A j k))) \/
        (lost nl 1 F /\ (Ej = 0 -> DN (j + 1) -> ~ FINE))).
    { intros k F Hk [[F0 DK]|(p & x & Hp & Hpn & EF & NF)] HK.
      - left. split; [auto|]. intros E0 k' H1 H2. destruct (Z_lt_le_dec k' k); [apply DK; auto; lia|apply HK; auto].
      - right. split; [|auto]. exists p, 1, x. split; [lia|]. split; [lia|auto]. }
    assert (HV0 : V0 = l + A * A - A mod B ^ (j + 1) * (A mod B ^ (j + 1)) - Ej + N * t).
    { rewrite V2, E, (vmod_S A j) at 1 by lia. fold u l. ring. }
    (* the carry is what it should be, unless one has been lost already *)
    assert (CE : forall k b' lph carry, inv k b' (2 * lph + carry) -> 0 <= k <= j -> j + k < nl -> 0 <= carry <= 4 ->
        (k = 0 /\ lph = 0 /\ carry = 0) \/ (0 < k /\ lph = vlimb A (k - 1) * u / B) ->
        exists F, (exists L, upinv a V0 (j + k) L b' /\ L mod B ^ j = l /\ L + (2 * lph + carry) * B ^ (j + k) = V0 mod B ^ (j + k) - F + 2 * u * (A mod B ^ k) * B ^ j) /\ FS k F /\
        (k = 0 -> double_ok lph (2 * lph + carry)) /\
        (Ej = 0 -> F = 0 -> 0 < k -> lph = vlimb A (k - 1) * u / B /\ 2 * lph + carry = square_carry A j k)).
    { intros k b' lph carry (L & F & U & Ml & FSk & t' & E' & T0) Hk Hjk Hca Hlast. exists F. rewrite (T0 Hjk), Z.mul_0_r, Z.add_0_r in E'.
      split; [exists L; auto|]. split; [auto|]. split.
      - intros K0. destruct Hlast as [(_ & -> & ->)|H]; [|lia]. unfold double_ok. rewrite D. lia.
      - intros EE FF K0. destruct Hlast as [H|(_ & EL)]; [lia|]. split; [auto|].
        rewrite FF, Z.sub_0_r in E'. rewrite EE, Z.sub_0_r in HV0. destruct (pow_div_total a (j + k)) as [qk Hqk]; [fold nl; lia|]. fold N in Hqk.
        eapply (square_carry_eq A N j k V0 t L); eauto; [lia|lia|]. apply (upinv_L _ _ _ _ _ U). }
    (* after a step *)
    assert (FSS : forall k F lo, 0 <= k <= j -> j + k < nl -> FS k F -> (lo = 0 \/ lo = 1) -> (k = 0 -> lo = 0) ->
        (Ej = 0 -> F = 0 -> 0 < k -> (lo = 0 <-> double_ok (vlimb A (k - 1) * u / B) (square_carry A j k))) ->
        exists F' t1, F + lo * B ^ (j + k + 1) = F' + N * t1 /\ (j + k + 1 < nl -> t1 = 0) /\ FS (k + 1) F' /\ (exists q, F' = F + B ^ (j + k + 1) * q) /\ (lo = 0 -> F' = F)).
    { intros k F lo Hk Hjk FSk [->| ->] HZ HD.
      - exists F, 0. split; [ring|]. split; [auto|]. split; [|split; [exists 0; ring|auto]].
        destruct FSk as [[F0 DK]|(p & x & Hp & Hpn & EF & NF)].
        + left. split; [auto|]. intros E0 k' H1 H2. destruct (Z.eq_dec k' k) as [->|NK]; [apply HD; auto; lia|apply DK; auto; lia].
        + right. exists p, x. split; [lia|auto].
      - assert (K0 : 0 < k) by (destruct (Z.eq_dec k 0); [specialize (HZ e); lia|lia]).
        destruct (Z_lt_le_dec (j + k + 1) nl) as [X|X].
        + exists (F + B ^ (j + k + 1)), 0. split; [ring|]. split; [auto|]. split; [|split; [exists 1; ring|lia]]. right.
          destruct FSk as [[F0 DK]|(p & x & Hp & Hpn & EF & NF)].
          * exists (j + k + 1), 0. split; [lia|]. split; [lia|]. split; [rewrite F0; ring|]. intros E0 _ FN.
            assert (Y : 1 = 0); [|discriminate Y]. apply (HD E0 F0 K0). apply FN; lia.
          * exists p, (x + B ^ (j + k - p)). split; [lia|]. split; [lia|]. split; [|auto]. rewrite EF.
            replace (j + k + 1) with (p + 1 + (j + k - p)) by lia. rewrite !Z.pow_add_r, Z.pow_1_r by lia. ring.
        + destruct (nlimbs_pow_div a) as [q Hq]. fold nl N in Hq. replace (j + k + 1) with nl by lia.
          exists F, q. split; [rewrite Hq; ring|]. split; [lia|]. split; [|split; [exists 0; ring|lia]].
          destruct FSk as [[F0 DK]|(p & x & Hp & Hpn & EF & NF)].
          * left. split; [auto|]. intros E0 k' H1 H2. apply DK; auto; lia.
          * right. exists p, x. split; [lia|auto]. }
    eapply wp_for with (I := fun k '(b', lph, carry) => inv k b' (2 * lph + carry) /\ 0 <= lph <= B - 2 /\ 0 <= carry <= 4 /\ (carry <= 2 \/ lph <= B - 3) /\
        ((k = 0 /\ lph = 0 /\ carry = 0) \/ (0 < k /\ lph = vlimb A (k - 1) * u / B))).
    + lia.
    + split; [|split; [lia|split; [lia|split; [lia|auto]]]]. exists (V0 mod B ^ j), 0. rewrite Z.add_0_r. split; [auto|].
      split; [rewrite Z.mod_mod by lia; auto|]. split; [left; split; [auto|intros; lia]|]. exists 0. rewrite Z.pow_0_r, Z.mod_1_r. split; [ring|auto].
    + intros k [[b3 lph] carry] Hk (INV & Hl1 & Hc1 & Hlc & Hlast).
      assert (HkB : 0 <= k <= j /\ j + k < nl) by (unfold rn in Hk; lia).
      destruct (CE k b3 lph carry INV (proj1 HkB) (proj2 HkB) Hc1 Hlast) as (F & (L & U & Ml & E') & FSk & CE0 & CE1). clear INV.
      assert (ROW : vlimb (mpval b3) k = vlimb A k).
      { rewrite <- limb_vlimb, (upinv_low _ _ _ _ _ _ U) by lia. rewrite <- (limb_of_mod L k j), <- (limb_of_mod A k j) by lia. rewrite Ml. auto. }
      xb; apply wp_load; [apply U|rewrite (upinv_nlimbs _ _ _ _ _ U); fold nl; lia|]. rewrite limb_vlimb, ROW. clear ROW.
      pose proof (vlimb_isl A k) as Ik. set (xk := vlimb A k) in *.
      xb; apply wp_mul_l; auto. intros ph pl Iph Ipl EP. destruct (prod_high_le _ _ _ _ Iu Ik Iph Ipl EP) as [Hph Hpl].
      assert (PHD : vlimb A k * u / B = ph). { fold xk. symmetry. apply (Z.div_unique _ _ _ pl); [left; unfold isl in Ipl; lia|lia]. }
      xb. eapply wp_up_load; eauto; [lia|fold nl; lia|]. pose proof (vlimb_isl V0 (j + k)) as Ires. set (res := vlimb V0 (j + k)) in *.
      xb; apply wp_double_rel; auto. intros c0 s lo Hc0 Hs Hs1 Hlo HOK E0.
      xb; apply wp_add_l; [auto|unfold isl; lia|]. intros c1 r1 Hc1' Ir1 E1.
      pose proof W_pos as HW. xb; apply wp_sub32; [lia|]. xb; apply wp_lshr; [lia|]. unfold lwmul.
      assert (Epl : exists c2 q, (c2 = 0 \/ c2 = 1) /\ isl q /\ pl / 2 ^ (W - 1) = c2 /\ (pl * 2) mod B = q /\ 2 * pl = c2 * B + q).
      { pose proof B_pow2_half as BH. unfold isl in *. clear - BH Ipl HB. set (H := 2 ^ (W - 1)) in *. destruct (Z_lt_le_dec pl H).
        - exists 0, (2 * pl). split; [auto|]. split; [lia|]. split; [apply Z.div_small; lia|]. split; [rewrite Z.mod_small; lia|lia].
        - exists 1, (2 * pl - B). split; [auto|]. split; [lia|]. split; [symmetry; apply (Z.div_unique pl H 1 (pl - H)); lia|].
          split; [symmetry; apply (Z.mod_unique _ _ 1); lia|lia]. }
      destruct Epl as (c2 & q & Hc2 & Iq & -> & -> & E2).
      xb; apply wp_add_l; auto. intros c3 r Hc3 Ir E3.
      assert (CARRY : c0 + c1 + c2 + c3 <= 2 \/ ph <= B - 3).
      { destruct (Z.eq_dec ph (B - 2)) as [X|X]; [left|lia]. specialize (Hpl X). unfold isl in *. clear - Hpl E0 E1 E2 E3 Hc0 Hc1' Hc2 Hc3 Hs Hs1 Ires Iq Ir Ir1 HB. lia. }
      assert (CR : (0 <= c0 + c1 < B) /\ (0 <= c0 + c1 + c2 < B) /\ (0 <= c0 + c1 + c2 + c3 < B) /\ (0 <= c0 + c1 + c2 + c3 <= 4)) by (clear - Hc0 Hc1' Hc2 Hc3 HB; lia).
      destruct CR as (CR1 & CR2 & CR3 & CR4).
      xb; apply wp_ladd; [exact CR1|]. xb; apply wp_ladd; [exact CR2|]. xb; apply wp_ladd; [exact CR3|].
      xb; apply wp_dassert; [rewrite lnot_1; apply Z.leb_le; apply Hph|].
      xb; apply wp_dassert; [clear - CARRY HB; rewrite lnot_eq by (unfold isl; lia); apply orb_true_iff; rewrite !Z.leb_le; lia|].
      xb; apply wp_usub; [clear - Hk; lia|].
      xb. eapply wp_store_hm; [apply U|fold nl; clear - Hk Hjl; lia|exact Ir|apply LASTK|reflexivity|].
      destruct (FSS k F lo (proj1 HkB) (proj2 HkB) FSk Hlo) as (F' & t1 & EF & Ht1 & FSk' & _).
      { intros K0. apply HOK, CE0, K0. }
      { intros X1 X2 X3. destruct (CE1 X1 X2 X3) as [Y1 Y2]. rewrite <- Y1, <- Y2. exact HOK. }
      intros b4 U4. fold N in U4. xr. split; [|split; [exact Hph|split; [exact CR4|split; [exact CARRY|]]]].
      2:{ right. split; [lia|]. replace (k + 1 - 1) with k by lia. auto. }
      eexists. exists F'. replace (j + (k + 1)) with (j + k + 1) by lia. split; [apply U4|]. split.
      { rewrite Hqj, mod_mul_le, Z.pow_add_r by lia. replace (r * (B ^ j * B ^ k)) with (r * B ^ k * B ^ j) by ring. rewrite Z.mod_add by lia. auto. }
      split; [exact FSk'|].
      rewrite (vmod_S V0 (j + k)), (vmod_S A k) by (clear - Hk Hjl; lia). fold res xk.
      assert (HLs : exists s0, (L + r * B ^ (j + k)) mod N = L + r * B ^ (j + k) + N * s0 /\ (j + k + 1 < nl -> s0 = 0)).
      { destruct (Z_lt_le_dec (j + k + 1) nl) as [X|X].
        - exists 0. split; [|auto]. rewrite Z.mul_0_r, Z.add_0_r. apply Z.mod_small.
          pose proof (upinv_L _ _ _ _ _ U) as HL. assert (Bpow_pos' : 0 < B ^ (j + k)) by (apply Bpow_pos; clear - HkB Hjl; lia).
          assert (SL : B ^ (j + k + 1) <= N) by (apply small_len; fold nl; clear - X HkB Hjl; lia). rewrite Bpow_S in SL by (clear - HkB Hjl; lia).
          exact (small_store r L (B ^ (j + k)) N HL Ir SL).
        - destruct (mod_cong (L + r * B ^ (j + k)) N) as [s0 Hs0]. exists s0. split; [auto|lia]. }
      destruct HLs as (s0 & HLs & Hs0). exists (s0 - t1). split.
      * assert (ST : (L + r * B ^ (j + k)) mod N + (2 * ph + (c0 + c1 + c2 + c3) + lo) * (B ^ (j + k) * B) =
           (V0 mod B ^ (j + k) - F + res * B ^ (j + k)) + 2 * u * (A mod B ^ k + xk * B ^ k) * B ^ j + N * (0 + s0)).
        { eapply sq_step; [apply HLs|rewrite E'; ring| |apply Z.pow_add_r; lia]. clear - E0 E1 E2 E3 EP. rewrite EP. lia. }
        assert (HP1 : B ^ (j + k + 1) = B ^ (j + k) * B) by (clear - HkB Hjl; rewrite Bpow_S by lia; ring). rewrite HP1 in EF. rewrite HP1. clear - ST EF. revert ST EF. generalize ((L + r * B ^ (j + k)) mod N), (V0 mod B ^ (j + k)), (A mod B ^ k). intros X1 X2 X3 ST EF.
        assert (Z1 : lo * (B ^ (j + k) * B) = F' + N * t1 - F) by (rewrite <- EF; ring).
        rewrite Z.mul_add_distr_r, Z1 in ST. rewrite Z.add_0_l in ST.
        replace (N * (s0 - t1)) with (N * s0 - N * t1) by ring. set (Y := 2 * u * (X3 + xk * B ^ k) * B ^ j) in *. lia.
      * intros X. rewrite Ht1, Hs0 by exact X. reflexivity.
    + intros [[b3 lph] carry] (INV & Hl1 & Hc1 & Hlc & Hlast). xm; intros C.
      * apply Z.leb_le in C. rewrite Z.min_r in INV, Hlast by lia. destruct INV as (L & F & U & Ml & FSk & t' & E' & _).
        assert (Hrn : 0 <= rn) by (unfold rn; lia). xr; apply (FIN _ F); [|apply (FSM rn); auto|apply (FSF rn); auto; intros; unfold rn in *; lia].
        replace (j + rn) with nl in * by (unfold rn; lia).
        destruct (upinv_end a V0 L b3 Ha B2 U) as [BE' HL]. fold N in HL.
        enough (EL : L = (V0 + 2 * u * l * B ^ j + u * u * B ^ j * B ^ j - F) mod N) by (rewrite <- EL; auto).
        destruct (mod_cong l (B ^ rn)) as [t2 T2].
        assert (HP : B ^ nl = B ^ rn * B ^ j) by (rewrite <- Z.pow_add_r by lia; f_equal; unfold rn; lia).
        assert (HP2 : B ^ j = B ^ rn * B ^ (j - rn)) by (rewrite <- Z.pow_add_r by lia; f_equal; lia).
        assert (AL : A mod B ^ rn = l mod B ^ rn) by (symmetry; apply mod_mod_pow; lia).
        rewrite AL, T2 in E'.
        replace (V0 + 2 * u * l * B ^ j + u * u * B ^ j * B ^ j - F) with (V0 + (2 * u * l * B ^ j + u * u * B ^ j * B ^ j - F)) by ring.
        apply (ENDM L (2 * u * l * B ^ j + u * u * B ^ j * B ^ j - F) (2 * lph + carry - 2 * u * t2 + u * u * B ^ (j - rn)) t'); auto.
        replace (L + (2 * lph + carry - 2 * u * t2 + u * u * B ^ (j - rn)) * B ^ nl)
          with ((L + (2 * lph + carry) * B ^ nl) - 2 * u * t2 * B ^ nl + u * u * B ^ (j - rn) * B ^ nl) by ring.
        rewrite E'. replace (u * u * B ^ j * B ^ j) with (u * u * (B ^ rn * B ^ (j - rn)) * B ^ j) by (rewrite <- HP2; ring). rewrite HP. ring.
      * apply Z.leb_gt in C. rewrite Z.min_l in INV, Hlast by lia.
        assert (Hj2 : j + j < nl) by (unfold rn in C; lia). destruct (CE j b3 lph carry INV ltac:(lia) Hj2 Hc1 Hlast) as (F & (L & U & Ml & E') & FSk & CE0 & CE1). clear INV.
        replace (j + j) with (2 * j) in * by lia. fold l in E'.
        xb; apply wp_mul_l; auto. intros ph pl Iph Ipl EP.
        xb. assert (H2j : 0 <= 2 * j <= 2 * j) by lia. assert (H2l : 2 * j < nlimbs a) by (fold nl; lia).
        apply (wp_up_load _ _ _ _ _ _ _ U H2j H2l). clear H2j H2l. pose proof (vlimb_isl V0 (2 * j)) as Ires. set (res := vlimb V0 (2 * j)) in *.
        xb; apply wp_double_rel; auto. intros c0 s lo Hc0 Hs _ Hlo HOK E0.
        assert (Hjj : 0 <= j <= j) by (clear - Hjl; lia). assert (Hj3 : j + j < nl) by (clear - Hj2; lia).
        destruct (FSS j F lo Hjj Hj3 FSk Hlo) as (F' & t1 & EF & Ht1 & FSk' & EQF & _).
        { intros K0. apply HOK, CE0, K0. }
        { intros X1 X2 X3. destruct (CE1 X1 X2 X3) as [Y1 Y2]. rewrite <- Y1, <- Y2. exact HOK. }
        replace (j + j) with (2 * j) in * by (clear; lia). clear HOK CE0 CE1 FSk Hlast Hlc EQF Ht1 Hjj Hj3 EST.
        xb; apply wp_add_l; [auto|unfold isl; lia|]. intros c1 r1 Hc1' Ir1 E1.
        xb; apply wp_add_l; auto. intros c2 r Hc2 Ir E2.
        xb; apply wp_ladd; [clear - Hc0 Hc1' HB; lia|]. xb; apply wp_ladd; [clear - Hc0 Hc1' Hc2 HB; lia|].
        xb; apply wp_usub; [clear - C Hjl; lia|].
        set (C1 := 2 * u * l * B ^ j + u * u * B ^ j * B ^ j - F').
        assert (ST : forall b4, upinv a V0 (2 * j + 1) ((L + r * B ^ (2 * j)) mod N) b4 ->
           exists L4, upinv a V0 (j + (j + 1)) L4 b4 /\ exists t, L4 + (ph + (c0 + c1 + c2)) * B ^ (j + (j + 1)) = V0 mod B ^ (j + (j + 1)) + C1 + N * t).
        { intros b4 U4. exists ((L + r * B ^ (2 * j)) mod N). replace (j + (j + 1)) with (2 * j + 1) by lia. split; [auto|].
          rewrite (vmod_S V0 (2 * j)), (Bpow_S (2 * j)), (Z.mul_comm B (B ^ (2 * j))) by lia. fold res.
          assert (HP : B ^ (2 * j) = B ^ j * B ^ j) by (rewrite <- Z.pow_add_r by lia; f_equal; lia).
          assert (HP1 : B ^ (2 * j + 1) = B ^ (2 * j) * B) by (clear - Hjl; rewrite Bpow_S by lia; ring). rewrite HP1 in EF.
          assert (SS : exists t', (L + r * B ^ (2 * j)) mod N + (ph + (c0 + c1 + c2) + lo) * (B ^ (2 * j) * B) =
             (V0 mod B ^ (2 * j) + res * B ^ (2 * j)) + ((2 * u * l * B ^ j - F) + (u * u) * B ^ (2 * j)) + N * t').
          { eapply (sq_step1 N L _ _ _ r _ _ _ _ _ 0); [apply mod_cong|rewrite E'; ring|]. rewrite EP. clear - E0 E1 E2. lia. }
          destruct SS as [t5 SS]. exists (t5 - t1). unfold C1. clear - SS EF HP.
          replace (u * u * B ^ j * B ^ j) with (u * u * B ^ (2 * j)) by (rewrite HP; ring).
          assert (Z1 : lo * (B ^ (2 * j) * B) = F' + N * t1 - F) by (rewrite <- EF; ring).
          rewrite Z.mul_add_distr_r, Z1 in SS. replace (N * (t5 - t1)) with (N * t5 - N * t1) by ring.
          revert SS. generalize ((L + r * B ^ (2 * j)) mod N), (V0 mod B ^ (2 * j)), (2 * u * l * B ^ j), (u * u * B ^ (2 * j)). intros; lia. }
        xb.
        assert (STORE : forall Q' : mp -> Prop, (forall b4, upinv a V0 (2 * j + 1) ((L + r * B ^ (2 * j)) mod N) b4 -> Q' b4) ->
            wp (mif negb (j =? rn - 1) then store_l_full b3 (2 * j) r else store_l b3 (2 * j) (Z.land r mask)) Q').
        { intros Q' HQ'. unfold mask. xm; intros CC.
          - apply negb_true_iff, Z.eqb_neq in CC. eapply wp_up_store_full; eauto; [lia|apply full_inner; fold nl; unfold rn in *; lia|].
            intros b4 U4. apply HQ'. rewrite Z.mod_small; auto. pose proof (upinv_L _ _ _ _ _ U4) as HL'. pose proof (upinv_L _ _ _ _ _ U) as HL. pf (Bpow_pos (2 * j)).
            split; [apply HL'|]. eapply Z.lt_le_trans; [apply HL'|]. apply small_len. fold nl. unfold rn in *. lia.
          - apply negb_false_iff, Z.eqb_eq in CC. assert (E2j : 2 * j = nl - 1) by (unfold rn in *; lia). rewrite E2j in *.
            eapply wp_up_store_last; eauto. intros b4 U4. fold nl in U4. apply HQ'. replace (nl - 1 + 1) with nl by lia.
            pf (lim_pos a (nl - 1)). unfold N. rewrite <- lim_total by auto. fold nl. rewrite hi_mod; auto; [|lia|apply (upinv_L _ _ _ _ _ U)].
            pf (Bpow_pos (nl - 1)). lia. }
        apply STORE. intros b4 U4. destruct (ST b4 U4) as (L4 & U4' & t4 & E4). clear STORE ST U4.
        xb.
        eapply wp_for with (I := fun k '(b', lph, carry) => isl lph /\ 0 <= carry <= 3 /\ exists L, upinv a V0 (j + k) L b' /\
           exists t, L + (lph + carry) * B ^ (j + k) = V0 mod B ^ (j + k) + C1 + N * t).
        -- unfold rn in *. lia.
        -- split; [auto|]. split; [lia|]. exists L4. split; [auto|]. eauto.
        -- intros k [[b5 lph5] carry5] Hk (Il5 & Hc5 & L5 & U5 & t5 & E5).
           xb. eapply wp_up_load; eauto; [lia|fold nl; unfold rn in *; lia|].
           xb; apply wp_add_l; auto; [apply vlimb_isl|]. intros k0 r0 Hk0 Ir0 Er0.
           xb; apply wp_add_l; auto; [unfold isl; clear - Hc5 HB; lia|]. intros k1 r5 Hk1 Ir5 Er5.
           xb; apply wp_ladd; [clear - Hk0 Hk1 HB; lia|]. xb; apply wp_usub; [clear - Hk Hjl; lia|].
           xb. eapply wp_store_hm; [apply U5|fold nl; unfold rn in *; clear - Hk Hjl; lia|exact Ir5|apply LASTK|reflexivity|].
           intros b6 U6. fold N in U6. xr. split; [apply isl_0|]. split; [clear - Hk0 Hk1; lia|].
           eexists. replace (j + (k + 1)) with (j + k + 1) by lia. split; [apply U6|].
           rewrite (vmod_S V0 (j + k)), (Bpow_S (j + k)), (Z.mul_comm B (B ^ (j + k))) by (clear - Hk Hjl; lia).
           replace C1 with (C1 + 0 * B ^ (j + k)) by ring.
           eapply sq_step1; [apply mod_cong|apply E5|]. clear - Er0 Er5. lia.
        -- intros [[b5 lph5] carry5] (_ & _ & L5 & U5 & t5 & E5). xr; apply (FIN _ F'); [|apply (FSM (j + 1)); auto; lia|apply (FSF (j + 1)); auto; intros; lia].
           replace (j + rn) with nl in * by (unfold rn; lia).
           destruct (upinv_end a V0 L5 b5 Ha B2 U5) as [BE' HL]. fold N in HL.
           replace (V0 + 2 * u * l * B ^ j + u * u * B ^ j * B ^ j - F') with (V0 + C1) by (unfold C1; ring). rewrite <- (ENDM L5 C1 (lph5 + carry5) t5); auto.
  - intros b1 (O & S & _ & t & E0 & E & EST). rewrite Z.sub_0_r in EST. apply (HQ _ E0).
    + split; [auto|]. split; [auto|]. pose proof (mpval_bound b1 O) as BB. rewrite (shape_len _ _ S) in BB. fold N in BB.
      rewrite Z.pow_0_r, Z.mod_1_r in E. apply (cong_mod _ _ _ t); auto. lia.
    + destruct EST as [[X1 X2]|[X1 X2]]; [left|right; auto]. split; [auto|]. intros j k H1 H2. apply X2; auto; lia.
Qed.

Lemma lost_nonzero : forall a M E, lost (nlimbs a) M E -> M < lim a (nlimbs a - 1) -> E mod 256 ^ mp_len a <> 0.
Proof.
  intros a M E (p & m & x & Hp & Hm & HE) HM HZ. assert (Hn : 0 < nlimbs a) by lia. rewrite <- (lim_total a Hn) in HZ.
  destruct (lim_div_B a Hn) as [q Hq]. pf (lim_pos a (nlimbs a - 1)) as LP. set (k := lim a (nlimbs a - 1)) in *. pf (Bpow_pos p) as Pp. pf (Bpow_pos (nlimbs a - 1)) as Pn.
  apply Z.mod_divide in HZ; [|pf (Z.mul_pos_pos (B ^ (nlimbs a - 1)) k); lia]. destruct HZ as [y Hy].
  assert (EP : B ^ (nlimbs a - 1) = B ^ p * B ^ (nlimbs a - 1 - p)) by (rewrite <- Z.pow_add_r by lia; f_equal; lia).
  rewrite HE, EP in Hy. assert (EM : m + B * x = y * B ^ (nlimbs a - 1 - p) * k).
  { apply (Z.mul_cancel_l _ _ (B ^ p)); [lia|]. rewrite Hy. ring. }
  set (w := y * B ^ (nlimbs a - 1 - p)) in *. clearbody w. clear Hy.
  assert (DM : m = k * (w - q * x)). { rewrite Hq in EM. clear - EM. lia. }
  set (z := w - q * x) in *. clearbody z. assert (0 < z) by (apply (mul_lt_cancel k); lia).
  pf (mul_le_l k 1 z). lia.
Qed.

Lemma square_release_exact : forall a n, debug c = false -> mp_ok a -> 0 <= n <= mp_len a ->
  let v := mpval a mod 256 ^ n in
  (square_right (nlimbs a) v -> yields (ct_square_trunc_mp a n) (fun a' => becomes a a' (v ^ 2 mod 256 ^ mp_len a))) /\
  (~ square_right (nlimbs a) v -> nlimbs a < 256 ^ (mp_len a - (nlimbs a - 1) * LB) ->
   yields (ct_square_trunc_mp a n) (fun a' => exists w, becomes a a' w /\ w <> v ^ 2 mod 256 ^ mp_len a)).
Proof.
  intros a n D Ha Hn v. assert (SR : square_right (nlimbs a) v <-> forall j k, 0 < k <= j -> j + k + 1 < nlimbs a ->
      double_ok (vlimb v (k - 1) * vlimb v j / B) (square_carry v j k)).
  { unfold square_right, double_ok. rewrite D. reflexivity. }
  split; intros HS.
  - apply wp_yields, wp_square_release; auto. fold v. cbv zeta. intros a' E HB [[-> _]|[_ NF]]; [|exfalso; apply NF, SR, HS].
    rewrite Z.pow_2_r. rewrite Z.sub_0_r in HB. exact HB.
  - intros HM. apply wp_yields, wp_square_release; auto. fold v. cbv zeta. intros a' E HB [[_ F]|[LE _]]; [exfalso; apply HS, SR, F|].
    eexists. split; [exact HB|]. intros EQ. rewrite Z.pow_2_r in EQ.
    pf (p256_pos (mp_len a) (mp_len_nonneg a)) as PN. pose proof (nlimbs_spec a) as NS. pose proof LB_pos as HLB.
    assert (Hnl : 0 < nlimbs a) by (destruct LE as (p & m & x & Hp & _); lia).
    apply (lost_nonzero a (ct_mp_nlimbs n) E LE).
    + destruct (in_nlimbs a n Ha Hn) as [IN _]. unfold lim. rewrite Z.min_r by lia. lia.
    + replace E with (v * v - (v * v - E)) by ring. rewrite Zminus_mod, EQ, Z.sub_diag. apply Z.mod_0_l. lia.
Qed.

(** ** Either build *)

Lemma square_carry_le : forall v j k, 0 <= j -> 0 < k -> square_carry v j k <= 2 * (limb_at v (k - 1) * limb_at v j / B) + 4.
Proof.
  intros v j k Hj Hk. unfold square_carry, limb_at. fold (vlimb v j). fold (vlimb v (k - 1)).
  set (D := v ^ 2 - (v mod B ^ (j + 1)) ^ 2). clearbody D. pf (Bpow_pos j) as Pj. pf (Bpow_pos (k - 1)) as Pk. pf (Bpow_pos (j + k)) as Pjk.
  pose proof (Z.mod_pos_bound D (B ^ (j + k)) Pjk) as HD. set (d := D mod B ^ (j + k)) in *. clearbody d.
  pose proof (vlimb_isl v j) as Iu. set (u := vlimb v j) in *. clearbody u.
  pf (vmod_S v (k - 1)) as VS. replace (k - 1 + 1) with k in VS by lia. pose proof (vlimb_isl v (k - 1)) as Ix. set (x := vlimb v (k - 1)) in *. clearbody x.
  pose proof (Z.mod_pos_bound v (B ^ (k - 1)) Pk) as HL. set (l := v mod B ^ (k - 1)) in *. clearbody l.
  pf (Bpow_S (k - 1)) as BS. replace (k - 1 + 1) with k in BS by lia. rewrite Z.pow_add_r, BS in * by lia. rewrite VS.
  set (P := B ^ (k - 1)) in *. set (J := B ^ j) in *. clearbody P J. pose proof B_gt as HB. unfold isl in *.
  assert (B0 : B <> 0) by lia. assert (B1 : 0 < B) by lia. pose proof (Z.div_mod (x * u) B B0) as DM. pose proof (Z.mod_pos_bound (x * u) B B1) as HM.
  set (h := x * u / B) in *. set (m := (x * u) mod B) in *. clearbody h m.
  enough (HH : (d + 2 * u * (l + x * P) * J) / (J * (B * P)) < 2 * h + 5) by lia.
  apply Z.div_lt_upper_bound; [lia|].
  assert (JP : 0 < J * P) by (apply Z.mul_pos_pos; lia).
  assert (E1 : u * l <= (B - 1) * P) by (apply Z.mul_le_mono_nonneg; lia).
  assert (E2 : u * l * J <= (B - 1) * P * J) by (apply Z.mul_le_mono_nonneg_r; lia).
  assert (E3 : m * (J * P) <= (B - 1) * (J * P)) by (apply Z.mul_le_mono_nonneg_r; lia).
  replace (2 * u * (l + x * P) * J) with (2 * (u * l * J) + 2 * ((x * u) * (J * P))) by ring. rewrite DM.
  replace ((B * h + m) * (J * P)) with (h * (J * (B * P)) + m * (J * P)) by ring.
  replace ((B - 1) * P * J) with (J * (B * P) - J * P) in E2 by ring. replace ((B - 1) * (J * P)) with (J * (B * P) - J * P) in E3 by ring.
  replace (J * (B * P) * (2 * h + 5)) with (2 * (h * (J * (B * P))) + 5 * (J * (B * P))) by ring.
  set (Y := J * (B * P)) in *. set (X := J * P) in *. set (hY := h * Y) in *. set (mX := m * X) in *. set (ul := u * l * J) in *. clearbody Y X hY mX ul.
  clear - E2 E3 HD JP. lia.
Qed.

Lemma safe_ok : forall n v, square_safe v -> square_ok n v.
Proof.
  intros n v SAFE. assert (F : square_fine n v).
  { apply fine_ok. intros j k Hk _. destruct (SAFE (k - 1) j ltac:(lia)) as [S1 S2]. pf (square_carry_le v j k) as LE. unfold limb_at in LE. fold (vlimb v j) in LE. fold (vlimb v (k - 1)) in LE. unfold double_ok.
    pose proof B_pow2_half as BH. set (H := 2 ^ (W - 1)) in *. assert (B2 : B / 2 = H) by (rewrite BH, Z.mul_comm, Z.div_mul by lia; auto). rewrite B2 in *.
    destruct (debug c); lia. }
  unfold square_ok. destruct (debug c) eqn:D; [auto|]. intros j k H1 H2. specialize (F j k H1). cbv zeta in F. rewrite D in F. apply F. lia.
Qed.

Lemma small_ok : forall n v, 0 <= v < B -> square_ok n v.
Proof.
  intros n v Hv. apply safe_ok. intros i j Hij. pose proof B_gt.
  assert (E : vlimb v j = 0). { unfold vlimb. rewrite Z.div_small; [apply Z.mod_0_l; lia|]. split; [lia|]. eapply Z.lt_le_trans; [apply Hv|]. rewrite <- (Z.pow_1_r B) at 1. apply Z.pow_le_mono_r; lia. }
  rewrite E, Z.mul_0_r, Z.div_0_l by lia. pf (Z.div_le_lower_bound B 2 4). lia.
Qed.

(** Right if [square_ok]; otherwise builds with debug assertions panic. *)
Lemma wx_square_ok : forall e a n (Q : mp -> Prop), mp_ok a -> 0 <= n <= mp_len a ->
  square_ok (nlimbs a) (mpval a mod 256 ^ n) \/ (debug c = true /\ e = true) ->
  (forall a', square_ok (nlimbs a) (mpval a mod 256 ^ n) -> becomes a a' ((mpval a mod 256 ^ n * (mpval a mod 256 ^ n)) mod 256 ^ mp_len a) -> Q a') ->
  wx e (ct_square_trunc_mp a n) Q.
Proof.
  intros e a n Q Ha Hn OK HQ. unfold square_ok in *. destruct (debug c) eqn:D.
  - apply wx_square; auto. cbv zeta. intros j k H1 H2 _. destruct OK as [F|F]; [left; exact (F j k H1 H2)|right; split; [auto|apply F]].
  - destruct OK as [F|[F _]]; [|discriminate F]. apply wx_wp. destruct (square_release_exact a n D Ha Hn) as [S _]. destruct (S F) as (a' & R & HB).
    unfold wp. unfold returns in R. rewrite R. apply HQ; auto. rewrite <- Z.pow_2_r. exact HB.
Qed.

End Facts.
