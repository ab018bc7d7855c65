(** Stores past the end of a composite buffer, and of values too large for its last limb. *)
From Coq Require Import ZArith List Bool Lia.
Require Import Verif.Spec Verif.Monad Verif.Base Verif.Wp Verif.Pan Verif.ModelLimb Verif.LimbFacts Verif.LimbFacts2
  Verif.ModelBuf Verif.SpecBuf Verif.BufFacts Verif.BufFacts2 Verif.BufFacts3 Verif.CompFacts Verif.BufProofs
  Verif.ModelAccess Verif.SpecAccess Verif.AccessFacts Verif.AccessProofs Verif.AccessCopy.
Import ListNotations.
Open Scope Z_scope.

Section Facts.
Context {c : cfg}.

Lemma wp_store_partial_cut : forall k cs T np value (Q : list cseg * Z -> Prop), cinv k T cs -> 0 <= T ->
  0 < np <= LB -> 0 <= value < 256 ^ (LB - np) ->
  match cs with [] => True | s :: _ => np < LB -> (T + slen s) mod LB = np end ->
  (forall cs', Forall2 cs_same cs cs' ->
     hval cs' = hval cs - hval cs mod 256 ^ (LB - np) + value mod 256 ^ Z.min (LB - np) (hlen cs) ->
     match cs, cs' with s :: _, s' :: _ => cs_segment s' = cs_segment s | _, _ => True end -> Q (cs', value / 256 ^ Z.min (LB - np) (hlen cs))) ->
  wp (composite_store_partial cs np value) Q.
Proof.
  induction cs as [|s rest IH]; intros T np value Q HI HT Hnp Hv Hpos HQ.
  - cbn [hlen hval] in HQ. rewrite Z.min_r, Z.pow_0_r, Z.div_1_r, Z.mod_1_r in HQ by lia.
    cbn [composite_store_partial]. pf (p256_pos (LB - np)).
    apply wp_mif; intros _; apply wp_ret; apply HQ; auto; cbn [hval]; rewrite Z.mod_0_l; lia.
  - cbn [composite_store_partial]. pose proof (cinv_refl _ _ _ HI) as RF. destruct (cinv_inv _ _ _ _ HI) as (Os & Op & Ks & Kp & En & Al & Ne & La & Ze & Fi & Re). apply wp_mif; intros E.
    + apply Z.eqb_eq in E. subst np. pose proof (slen_nonneg s). pose proof (plen_nonneg s). pose proof (clen_nonneg rest).
      rewrite Z.sub_diag, Z.pow_0_r in Hv. assert (value = 0) by lia. subst value. rewrite Z.div_0_l, Z.mod_0_l in HQ by (apply Z.pow_nonzero; [lia|cbn [hlen]; lia]).
      apply wp_ret. apply HQ; auto. rewrite Z.sub_diag, Z.pow_0_r, Z.mod_1_r. lia.
    + apply Z.eqb_neq in E. specialize (Hpos ltac:(lia)). rewrite Hpos in *.
      pose proof (slen_nonneg s) as SN. pose proof (plen_nonneg s) as PN. pose proof LB_pos as HLB. pose proof (clen_nonneg rest) as CN.
      pose proof (mpval_bound _ Op) as PB. fold (plen s) in PB.
      pf (p256_pos np) as NP. pf (p256_pos (plen s)) as PP.
      set (m := LB - (np + plen s)). set (P := cs_high_next_partial s) in *. pf (p256_pos m) as MP.
      assert (HM : hval (s :: rest) mod 256 ^ (LB - np) = mpval P + 256 ^ plen s * (cval rest mod 256 ^ m)).
      { cbn [hval]. fold P. replace (LB - np) with (plen s + m) by (unfold m; lia).
        pf (hval_step 0 (plen s) (mpval P) (cval rest) m) as HS. rewrite Z.pow_0_r in HS. lia. }
      (* the segment following an unfinished limb is empty *)
      assert (HR : np + plen s < LB -> match rest with [] => True | s' :: _ => slen s' = 0 /\ (T + slen s + plen s) mod LB = np + plen s end).
      { intros L. destruct rest as [|s' rest']; auto. destruct (cinv_inv _ _ _ _ Re) as (Os' & Op' & Ks' & Kp' & En' & Al' & Ne' & La' & Ze' & Fi' & Re').
        assert (PN' : (T + slen s + plen s) mod LB = np + plen s) by (apply pos_next; lia). destruct Al'; split; auto; lia. }
      assert (CH : np + plen s < LB -> cval rest = hval rest /\ hlen rest = clen rest).
      { intros L. specialize (HR L). destruct rest as [|s' rest']; auto. destruct HR as [S0 _].
        destruct (cinv_inv _ _ _ _ Re) as (Os' & Op' & Ks' & Kp' & En' & Al' & Ne' & La' & Ze' & Fi' & Re'). cbn [cval hval hlen clen]. pose proof (mpval_bound _ Os') as B0. fold (slen s') in B0. rewrite S0 in *. rewrite Z.pow_0_r in *. lia. }
      assert (NXT : match rest with [] => True | s' :: _ => np + plen s < LB -> (T + slen s + plen s + slen s') mod LB = np + plen s end).
      { destruct rest as [|s' rest']; auto. intros L. destruct (HR L) as [-> M]. rewrite Z.add_0_r. auto. }
      assert (HN : 0 <= hlen rest). { destruct rest; cbn [hlen]; [lia|]. pose proof (plen_nonneg c0). pose proof (clen_nonneg rest). lia. }
      (* values after the recursive call *)
      assert (CV : forall rest', Forall2 cs_same rest rest' ->
         hval rest' = hval rest - hval rest mod 256 ^ m + (value / 256 ^ plen s) mod 256 ^ Z.min m (hlen rest) ->
         match rest, rest' with s0 :: _, s' :: _ => cs_segment s' = cs_segment s0 | _, _ => True end ->
         cval rest' = cval rest - cval rest mod 256 ^ m + (value / 256 ^ plen s) mod 256 ^ Z.min m (hlen rest)).
      { intros rest' F V SG. destruct rest as [|s0 r0].
        - inversion F; subst rest'. cbn [hval cval] in *. lia.
        - inversion F as [|y1 s0' y3 l' F1 F2 y5 y6]. subst y1 y3 rest'. assert (SL : slen s0' = slen s0) by (apply cs_same_slen; auto).
          destruct (Z_lt_le_dec (np + plen s) LB) as [L|L].
          + destruct (HR L) as [S0 _]. destruct (CH L) as [C0 _].
            assert (C1 : cval (s0' :: l') = hval (s0' :: l')).
            { cbn [cval hval]. rewrite SG, SL, S0. destruct (cinv_inv _ _ _ _ Re) as (Os' & Op' & Ks' & Kp' & En' & Al' & Ne' & La' & Ze' & Fi' & Re'). pose proof (mpval_bound _ Os') as B0. fold (slen s0) in B0. rewrite S0 in *. rewrite Z.pow_0_r in *. lia. }
            rewrite C1, C0, V. auto.
          + assert (m = 0) by (unfold m; lia). rewrite H, Z.pow_0_r, Z.mod_1_r in *.
            assert (V0 : value / 256 ^ plen s = 0).
            { apply Z.div_small. split; [lia|]. eapply Z.lt_le_trans; [apply Hv|]. apply Z.pow_le_mono_r; [lia|].
              unfold m in H. lia. }
            rewrite V0 in *. rewrite Z.mod_0_l in V |- * by (apply Z.pow_nonzero; lia).
            assert (hval (s0' :: l') = hval (s0 :: r0)) by lia.
            cbn [hval cval] in *. rewrite SG, SL.
            assert (EQ : mpval (cs_high_next_partial s0') + 256 ^ plen s0' * cval l' = mpval (cs_high_next_partial s0) + 256 ^ plen s0 * cval r0) by lia.
            rewrite EQ. lia. }
      assert (BND : 0 <= value / 256 ^ plen s < 256 ^ (LB - (np + plen s))).
      { split; [apply Z.div_pos; lia|]. apply Z.div_lt_upper_bound; [lia|].
        rewrite <- Z.pow_add_r by lia. replace (plen s + (LB - (np + plen s))) with (LB - np) by lia. lia. }
      assert (EM0 : Z.min (LB - np) (hlen (s :: rest)) = plen s + Z.min m (hlen rest)).
      { cbn [hlen]. unfold m. destruct (Z_lt_le_dec (np + plen s) LB) as [L|L]; [destruct (CH L) as [_ ->]; lia|lia]. }
      assert (QM : 0 < 256 ^ Z.min m (hlen rest)) by (apply Z.pow_pos_nonneg; unfold m; lia).
      rewrite EM0, Z.pow_add_r, <- Z.div_div in HQ by (unfold m; lia).
      rewrite Z.rem_mul_r in HQ by (unfold m; lia).
      apply wp_mif; intros EM; rewrite mp_is_empty_eq in EM; change (mp_len (cs_high_next_partial s)) with (plen s) in EM.
      * apply negb_true_iff, Z.eqb_neq in EM.
        change (mp_len P) with (plen s) in *.
        assert (N0 : 0 < nlimbs P) by (apply nlimbs_lt; [lia|change (mp_len P) with (plen s); lia]).
        change (mp_len P) with (plen s).
        apply wp_bind, wp_lsb_mask; [unfold W; lia|]. rewrite land_mask by lia. rewrite <- pow256 by lia.
        assert (VM : 0 <= value mod 256 ^ plen s < 256 ^ plen s) by (apply Z.mod_pos_bound; lia).
        assert (L0 : limb P 0 = mpval P).
        { unfold limb. rewrite Z.pow_0_r, Z.div_1_r. apply Z.mod_small. split; [lia|]. eapply Z.lt_le_trans; [apply PB|].
          rewrite B_256'. apply Z.pow_le_mono_r; lia. }
        apply wp_bind, wp_store; auto; [lia| |].
        { unfold lim. change (mp_len P) with (plen s). rewrite Z.min_r by lia. replace (plen s - 0 * LB) with (plen s) by lia. auto. }
        intros P' (OP & SP & VP). rewrite L0, Z.pow_0_r in VP.
        apply wp_bind, wp_lshr; [unfold W; lia|]. rewrite <- pow256 by lia.
        apply wp_bind. apply IH with (T := T + slen s + plen s); auto; [lia|lia|].
        intros rest' F V SG. fold m in V. apply wp_ret.
        specialize (CV rest' F V SG).
        apply HQ.
        -- constructor; auto. split; [auto|]. split; [auto|]. split; [auto|]. split; [apply shape_refl|auto].
        -- rewrite HM. cbn [hval]. unfold plen at 1. cbn [cs_high_next_partial]. rewrite (shape_len _ _ SP). change (mp_len P) with (plen s).
           rewrite CV, VP. fold P. lia.
        -- reflexivity.
      * apply negb_false_iff, Z.eqb_eq in EM. change (plen s = 0) in EM.
        apply wp_bind. replace np with (np + plen s) by lia. replace value with (value / 256 ^ plen s) by (rewrite EM, Z.pow_0_r, Z.div_1_r; auto).
        apply IH with (T := T + slen s + plen s); auto; [lia|lia|].
        intros rest' F V SG. fold m in V. apply wp_ret. specialize (CV rest' F V SG).
        apply HQ.
        -- constructor; auto. apply cs_same_refl; auto.
        -- rewrite HM. cbn [hval]. fold P. rewrite CV. rewrite EM, Z.pow_0_r in *. rewrite Z.mod_1_r in *. lia.
        -- auto.
Qed.

Lemma acc_bind : forall A C e (m : M A) (f : A -> M C) (P : C -> Prop), wp m (fun a => acc e (f a) P) -> acc e (bind m f) P.
Proof. intros A C [] m f P H; unfold acc in *; [apply wp_bind; auto|apply pan_wp; auto]. Qed.
Lemma acc_mif : forall A e (b : bool) (m1 m2 : M A) (P : A -> Prop), (b = true -> acc e m1 P) -> (b = false -> acc e m2 P) -> acc e (mif b then m1 else m2) P.
Proof. intros A [] b m1 m2 P H1 H2; unfold acc in *; [apply wp_mif; auto|apply pan_mif; auto]. Qed.

Lemma index_pan : forall k i segs T before off, 0 <= T -> cinv k T segs -> ct_mp_nlimbs (T + clen segs) <= i -> panics (limb_index_to_segment before segs off i).
Proof.
  intros k i. induction segs as [|s rest IH]; intros T before off HT HI Hi; cbn [limb_index_to_segment]; [apply pan_panic|].
  pose proof (slen_nonneg s). pose proof (plen_nonneg s). pose proof (clen_nonneg rest).
  destruct (cinv_inv _ _ _ _ HI) as (Os & Op & Ks & Kp & En & Al & Ne & La & Ze & Fi & Re). cbn [clen] in Hi.
  apply pan_mif; intros E.
  - exfalso. apply Z.ltb_lt in E. rewrite En in E. pf (ct_mp_nlimbs_mono c (T + slen s + plen s) (T + (slen s + plen s + clen rest))). lia.
  - eapply IH with (T := T + slen s + plen s); [lia|exact Re|]. replace (T + slen s + plen s + clen rest) with (T + (slen s + plen s + clen rest)) by lia. auto.
Qed.

Lemma composite_store_large : forall k cs i v, cinv k 0 cs -> 0 <= i < ct_mp_nlimbs (clen cs) ->
  clim cs i <= v < B ->
  acc (negb (debug c)) (composite_store cs i v)
    (fun cs' => Forall2 cs_same cs cs' /\ cval cs' = cval cs + (v mod clim cs i - vlimb (cval cs) i) * B ^ i).
Proof.
  intros k cs i v HI Hi Hv. unfold composite_store. pose proof LB_pos as HLB.
  apply acc_bind. eapply wp_index with (T := 0) (k := k); [lia|eauto|symmetry; apply ct_mp_nlimbs_unique; lia|rewrite Z.add_0_l; auto|].
  intros pre s rest off E I0 EO HO HR EE. subst cs. cbn [app].
  assert (PB : 0 <= cval pre < 256 ^ (off * LB)) by (rewrite EO, Z.add_0_l; eapply cval_prefix_bound; eauto).
  assert (OL : 0 <= off * LB) by (apply mul_nn; lia).
  set (j := i - off) in *. assert (J : 0 <= j < nlimbs (cs_segment s)) by (unfold j; lia).
  unfold clim in *. rewrite clen_app in *. assert (CP : clen pre = off * LB) by lia. rewrite CP in *.
  replace (off * LB + clen (s :: rest) - i * LB) with (clen (s :: rest) - j * LB) in * by (unfold j; lia).
  set (R := Z.min LB (clen (s :: rest) - j * LB)) in *.
  set (w := v mod 256 ^ R) in *.
  assert (HQ' : forall cs', Forall2 cs_same (s :: rest) cs' -> cval cs' = cval (s :: rest) + (w - vlimb (cval (s :: rest)) j) * B ^ j ->
    Forall2 cs_same (pre ++ s :: rest) (pre ++ cs') /\
    cval (pre ++ cs') = cval (pre ++ s :: rest) + (w - vlimb (cval (pre ++ s :: rest)) i) * B ^ i).
  { intros cs' F V. split; [eapply Forall2_refl_app; eauto|]. rewrite !cval_app, CP.
    rewrite vlimb_shift by lia. fold j. rewrite V. replace i with (off + j) by (unfold j; lia).
    rewrite Z.pow_add_r by lia. rewrite (Bpow256 off) by lia. ring. }
  assert (RL : R < LB).
  { destruct (Z_lt_le_dec R LB) as [L|L]; auto. exfalso. assert (R = LB) by (unfold R in *; lia). rewrite H, <- B_256' in Hv. lia. }
  assert (RE : R = clen (s :: rest) - j * LB) by (unfold R in *; lia).
  clear Hi HI EO PB. assert (JE : j = i - off) by auto. clearbody j.
  pose proof (cinv_refl _ _ _ I0) as RF. inversion RF as [|x1 x2 x3 x4 RF1 RF2 x5 x6]. subst x1 x2 x3 x4. clear RF.
  destruct (cinv_inv _ _ _ _ I0) as (Os & Op & Ks & Kp & En & Al & Ne & La & Ze & Fi & Re). pose proof (mpval_bound _ Os) as SB. fold (slen s) in SB. pose proof (slen_nonneg s). pose proof (plen_nonneg s). pose proof (clen_nonneg rest).
  assert (NFULL : ~ (j + 1) * LB <= slen s). { cbn [clen] in RE. lia. }
  assert (JS : j * LB < slen s) by (apply nlimbs_lt; lia).
  assert (RP : 0 < R) by (cbn [clen] in RE; lia).
  assert (VI : isl v). { unfold isl. split; [|lia]. pf (p256_pos R). lia. }
  apply acc_bind, wp_usub; [lia|]. apply acc_mif; intros E1.
  - exfalso. apply NFULL. apply orb_true_iff in E1. destruct E1 as [E1|E1].
    + apply negb_true_iff, Z.eqb_neq in E1. apply nlimbs_full. lia.
    + apply negb_true_iff in E1. apply ne_full; auto.
  - apply orb_false_iff in E1. destruct E1 as [E1 E2]. apply negb_false_iff, Z.eqb_eq in E1. apply negb_false_iff in E2.
    assert (JL : j = nlimbs (cs_segment s) - 1) by lia.
    apply acc_mif; intros E3.
    + apply acc_bind, wp_usub; [lia|]. rewrite <- JE. apply orb_true_iff in E3. destruct E3 as [E3|E3].
      * destruct rest; try discriminate. cbn [clen] in RE. rewrite La in RE by auto.
        assert (LR : lim (cs_segment s) j = 256 ^ R). { unfold lim. fold (slen s). f_equal. lia. }
        apply acc_map.
        pose proof (store_near (cs_segment s) j v Os ltac:(lia) (in_small _ j Os ltac:(fold (slen s); lia)) VI) as SN.
        unfold storable in SN. rewrite ex_in in SN by (fold (slen s); lia).
        change (limb_room (cs_segment s) j) with (lim (cs_segment s) j) in SN. rewrite LR in SN.
        rewrite (proj2 (Z.leb_le (256 ^ R) v)) in SN by lia. rewrite andb_true_r in SN. cbn [andb] in SN.
        eapply acc_mono; [exact SN|]. intros b' (O & S & V). fold w in V. apply HQ'.
        -- constructor; auto. split; [auto|]. split; [auto|]. split; [auto|]. split; [auto|apply shape_refl].
        -- pose proof (mpval_bound _ Op) as PB'. fold (plen s) in PB'. rewrite La, Z.pow_0_r in PB' by auto.
           cbn [cval]. unfold slen at 1, plen at 1. cbn [cs_segment cs_high_next_partial]. rewrite (shape_len _ _ S).
           replace (mpval (cs_high_next_partial s)) with 0 by lia.
           rewrite !Z.mul_0_r, !Z.add_0_r, V, limb_vlimb. auto.
      * exfalso. apply NFULL. apply Z.eqb_eq in E3. apply mod0_full; auto.
    + apply orb_false_iff in E3. destruct E3 as [E3 E4]. apply Z.eqb_neq in E4.
      pf (last_partial (cs_segment s)) as LP. pf (Z.mod_pos_bound (mp_len (cs_segment s)) LB) as MB.
      fold (slen s) in *. set (np := slen s mod LB) in *. rewrite <- JL in LP.
      pf (p256_pos np) as NP.
      destruct (vlimb_part (mpval (cs_segment s)) (slen s) np (mpval (cs_high_next_partial s) + 256 ^ plen s * cval rest) j) as [VE VB]; auto; [lia|lia|].
      apply acc_bind, wp_lsb_mask; [unfold W; lia|]. apply acc_bind, wp_usub; [lia|]. rewrite <- JE. rewrite land_mask by lia. rewrite <- pow256 by lia.
      assert (VM : 0 <= v mod 256 ^ np < 256 ^ np) by (apply Z.mod_pos_bound; lia).
      apply acc_bind, wp_store; auto.
      { unfold lim. fold (slen s). rewrite Z.min_r by lia. replace (slen s - j * LB) with np by lia. auto. }
      intros b' (O & S & V). apply acc_bind, wp_lshr; [unfold W; lia|]. rewrite <- pow256 by lia.
      apply acc_bind. set (s' := mk_cseg (cs_end s) b' (cs_high_next_partial s)).
      assert (SS : cs_same s s'). { split; [auto|]. split; [auto|]. split; [auto|]. split; [auto|apply shape_refl]. }
      assert (HL : hlen (s' :: rest) = R - np). { cbn [hlen]. rewrite (cs_same_plen s s') by auto. cbn [clen] in RE. lia. }
      assert (HN : 0 <= R - np). { rewrite <- HL. cbn [hlen]. pose proof (plen_nonneg s'). lia. }
      pf (p256_pos (R - np)) as RNP.
      eapply wp_store_partial_cut with (T := off * LB) (k := k); [ | |lia| | | ].
      * eapply cinv_same; [apply I0|]. constructor; auto.
      * lia.
      * split; [apply Z.div_pos; [apply VI|lia]|]. apply Z.div_lt_upper_bound; [lia|]. rewrite <- Z.pow_add_r by lia.
        replace (np + (LB - np)) with LB by lia. rewrite <- B_256'. lia.
      * intros _. rewrite (cs_same_slen s s') by auto. unfold np. rewrite Z.add_comm, Z.mod_add by lia. auto.
      * intros cs' F HV SG. rewrite HL, Z.min_r in HV by lia. rewrite HL, Z.min_r by lia.
        rewrite Z.div_div, <- Z.pow_add_r by lia. replace (np + (R - np)) with R by lia.
        assert (NZ : 1 <= v / 256 ^ R). { apply Z.div_le_lower_bound; [apply p256_pos; lia|lia]. }
        destruct (debug c) eqn:D; unfold acc; cbn [negb].
        { apply pan_l, pan_dassert; auto. apply Z.eqb_neq. lia. }
        apply wp_bind. unfold dassert. rewrite D. apply wp_ret. apply wp_ret. apply HQ'.
        -- inversion F as [|y1 y2 y3 y4 F1 F2 y5 y6]; subst y1 y3 cs'. constructor.
           ++ destruct SS as (A1 & A2 & A3 & A4 & A5). destruct F1 as (B1 & B2 & B3 & B4 & B5).
              split; [congruence|]. split; [auto|]. split; [auto|]. split; [eapply shape_trans; [exact A4|exact B4]|eapply shape_trans; [exact A5|exact B5]].
           ++ auto.
        -- inversion F as [|y1 y2 y3 y4 F1 F2 y5 y6]; subst y1 y3 cs'. cbn [hval] in HV. cbn [cval].
           rewrite (cs_same_slen s' y2), (cs_same_slen s s') by auto. rewrite HV, SG. change (plen s') with (plen s). change (cs_high_next_partial s') with (cs_high_next_partial s). change (cs_segment s') with b'.
           rewrite V, VE, limb_vlimb.
           set (H' := mpval (cs_high_next_partial s) + 256 ^ plen s * cval rest) in *.
           assert (WE : w = v mod 256 ^ np + 256 ^ np * ((v / 256 ^ np) mod 256 ^ (R - np))).
           { unfold w. replace R with (np + (R - np)) at 1 by lia. rewrite Z.pow_add_r, Z.rem_mul_r by lia. auto. }
           assert (EN : 256 ^ slen s = B ^ j * 256 ^ np). { rewrite LP. rewrite Bpow256 by lia. apply Z.pow_add_r; [apply mul_nn|]; lia. }
           rewrite EN, WE. ring.
Qed.

(** Every index and value. *)
Definition cstorable (cs : list cseg) (i v : Z) : bool := (i <? ct_mp_nlimbs (clen cs)) && negb (debug c && (clim cs i <=? v)).
Lemma composite_store_acc : forall k cs i v, cinv k 0 cs -> 0 <= i -> isl v ->
  acc (cstorable cs i v) (composite_store cs i v)
    (fun cs' => Forall2 cs_same cs cs' /\ cval cs' = cval cs + (v mod clim cs i - vlimb (cval cs) i) * B ^ i).
Proof.
  intros k cs i v HI Hi Hv. unfold cstorable. destruct (Z.ltb_spec i (ct_mp_nlimbs (clen cs))) as [L|L]; cbn [andb].
  - destruct (Z.leb_spec (clim cs i) v) as [L2|L2].
    + rewrite andb_true_r. eapply composite_store_large; eauto. unfold isl in Hv. lia.
    + rewrite andb_false_r. unfold acc. cbn [negb]. eapply wp_composite_store; eauto; [unfold isl in Hv; lia|].
      intros cs' F V. split; auto. rewrite Z.mod_small by (unfold isl in Hv; lia). auto.
  - unfold acc, composite_store. apply pan_l. eapply index_pan with (T := 0) (k := k); [lia|eauto|rewrite Z.add_0_l; auto].
Qed.
Lemma composite_load_acc : forall k cs i, cinv k 0 cs -> 0 <= i ->
  acc (i <? ct_mp_nlimbs (clen cs)) (composite_load cs i) (fun v => v = vlimb (cval cs) i).
Proof.
  intros k cs i HI Hi. destruct (Z.ltb_spec i (ct_mp_nlimbs (clen cs))) as [L|L]; unfold acc.
  - eapply wp_composite_load; eauto.
  - unfold composite_load. apply pan_l. eapply index_pan with (T := 0) (k := k); [lia|eauto|rewrite Z.add_0_l; auto].
Qed.

Definition upd_cut (n X : Z) (iv : Z * Z) : Z := X + (snd iv mod 256 ^ Z.min LB (n - fst iv * LB) - (X / B ^ fst iv) mod B) * B ^ fst iv.
Definition op_fits (n : Z) (iv : Z * Z) : Prop := fst iv * LB < n /\ (debug c = true -> snd iv < 256 ^ Z.min LB (n - fst iv * LB)).

Lemma fold_pan : forall ops (m : M (list cseg)), panics m ->
  panics (fold_left (fun m iv => let! cs := m in composite_store cs (fst iv) (snd iv)) ops m).
Proof. induction ops; intros m H; cbn [fold_left]; auto. apply IHops, pan_l; auto. Qed.

Lemma nlimbs_iff : forall i n, 0 <= n -> 0 <= i -> (i <? ct_mp_nlimbs n) = (i * LB <? n).
Proof.
  intros i n Hn Hi. pose proof LB_pos. destruct (Z.ltb_spec (i * LB) n) as [L|L].
  - apply Z.ltb_lt. apply ct_mp_nlimbs_lt; auto.
  - apply Z.ltb_ge. unfold ct_mp_nlimbs. assert ((n + LB - 1) / LB < i + 1); [|lia]. apply Z.div_lt_upper_bound; lia.
Qed.
Lemma op_fits_dec : forall cs i v, 0 <= i -> op_fits (clen cs) (i, v) <-> cstorable cs i v = true.
Proof.
  intros cs i v Hi. unfold op_fits, cstorable, clim. cbn [fst snd]. rewrite nlimbs_iff by (auto; apply clen_nonneg).
  rewrite andb_true_iff, Z.ltb_lt, negb_true_iff, andb_false_iff, Z.leb_gt. destruct (debug c); intuition congruence.
Qed.

Lemma stores_any : forall k cs, cinv k 0 cs -> forall ops m X, Forall (fun iv => 0 <= fst iv /\ 0 <= snd iv < B) ops ->
  wp m (fun cs' => Forall2 cs_same cs cs' /\ cval cs' = X) ->
  let r := fold_left (fun m iv => let! cs := m in composite_store cs (fst iv) (snd iv)) ops m in
  (Forall (op_fits (clen cs)) ops -> wp r (fun cs' => Forall2 cs_same cs cs' /\ cval cs' = fold_left (upd_cut (clen cs)) ops X)) /\
  (~ Forall (op_fits (clen cs)) ops -> panics r).
Proof.
  intros k cs HI. induction ops as [|[i v] ops IH]; intros m X HO Hm; cbn [fold_left]; cbv zeta.
  { split; [auto|]. intros []. constructor. }
  apply Forall_cons_iff in HO. destruct HO as [[Hi Hv] HO]. cbn [fst snd] in *.
  destruct (cstorable cs i v) eqn:E.
  - assert (H1 : wp (let! cs := m in composite_store cs i v) (fun cs' => Forall2 cs_same cs cs' /\ cval cs' = upd_cut (clen cs) X (i, v))).
    { apply wp_bind. eapply wp_mono; [exact Hm|]. intros cs1 [F1 V1].
      pose proof (composite_store_acc k cs1 i v (cinv_same _ _ _ _ HI F1) Hi Hv) as A.
      unfold cstorable, clim in A. rewrite (same_clen cs cs1) in A by auto. unfold cstorable, clim in E. rewrite E in A. unfold acc in A.
      eapply wp_mono; [exact A|]. intros cs2 [F2 V2]. split; [eapply same_trans; eauto|]. rewrite V2, V1. reflexivity. }
    destruct (IH _ _ HO H1) as [I1 I2]. apply op_fits_dec in E; auto.
    split; [intros F; apply I1; inversion F; auto|]. intros NF. apply I2. intros F. apply NF. constructor; auto.
  - split; [intros F; inversion F as [|? ? F0]; apply op_fits_dec in F0; auto; congruence|]. intros _. apply fold_pan.
    apply pan_wp. eapply wp_mono; [exact Hm|]. intros cs1 [F1 V1].
    pose proof (composite_store_acc k cs1 i v (cinv_same _ _ _ _ HI F1) Hi Hv) as A.
    unfold cstorable, clim in A. rewrite (same_clen cs cs1) in A by auto. unfold cstorable, clim in E. rewrite E in A. exact A.
Qed.
End Facts.

Lemma composite_any : forall (c : cfg) k segs, segs_ok k segs ->
  let room i := 256 ^ Z.min LB (segs_len segs - i * LB) in
  let fits iv := fst iv * LB < segs_len segs /\ (debug c = true -> snd iv < room (fst iv)) in
  yields (composite_new segs) (fun cs =>
    forall ops, Forall (fun iv => 0 <= fst iv /\ 0 <= snd iv < B) ops ->
      let run := fold_left (fun m iv => let! cs := m in composite_store cs (fst iv) (snd iv)) ops (ret cs) in
      (Forall fits ops -> yields run (fun cs' =>
        let X := fold_left (fun X iv => X + (snd iv mod room (fst iv) - (X / B ^ fst iv) mod B) * B ^ fst iv) ops (segs_val segs) in
        (forall i, 0 <= i -> i * LB < segs_len segs -> returns (composite_load cs' i) ((X / B ^ i) mod B)) /\
        (forall i, segs_len segs <= i * LB -> panics (composite_load cs' i)) /\
        Forall2 (fun b b' => same_shape b b' /\ mp_ok b') segs (composite_segments cs') /\
        segs_val (composite_segments cs') = X)) /\
      (~ Forall fits ops -> panics run)).
Proof.
  intros c k segs HS room fits. apply wp_yields. apply wp_composite_new with (k := k); auto. intros cs HI HL HV HG ops HO run.
  destruct (stores_any k cs HI ops (ret cs) (segs_val segs) HO) as [S1 S2].
  { apply wp_ret. split; auto. eapply cinv_refl; eauto. }
  rewrite HL in S1, S2. split; [|exact S2]. intros HF. apply wp_yields. eapply wp_mono; [exact (S1 HF)|]. cbv zeta. intros cs' [F2 V'].
  change (fold_left (fun X iv => X + (snd iv mod room (fst iv) - (X / B ^ fst iv) mod B) * B ^ fst iv) ops (segs_val segs)) with (fold_left (upd_cut (segs_len segs)) ops (segs_val segs)).
  assert (A : forall i, 0 <= i -> acc (i * LB <? segs_len segs) (composite_load cs' i) (fun v => v = vlimb (cval cs') i)).
  { intros i Hi. rewrite <- nlimbs_iff by (auto using segs_len_nonneg). rewrite <- HL, <- (same_clen cs cs') by auto.
    eapply composite_load_acc; auto. eapply cinv_same; eauto. }
  split; [|split; [|]].
  - intros i Hi Hl. specialize (A i Hi). rewrite (proj2 (Z.ltb_lt _ _)) in A by auto. unfold acc in A.
    apply wp_returns in A. destruct A as (v & A1 & A2). rewrite V' in A2. subst v. exact A1.
  - intros i Hl. pose proof LB_pos. pose proof (segs_len_nonneg c segs). assert (0 <= i) by nia. specialize (A i H1). rewrite (proj2 (Z.ltb_ge _ _)) in A by auto. exact A.
  - destruct cs as [|s0 r0].
    + inversion F2. subst cs'. assert (O0 : ops = []).
      { destruct ops as [|[i v] ops]; auto. exfalso. inversion HF as [|? ? HF1 HF2]. destruct HF1 as [H1 _]. cbn [fst snd] in H1. apply Forall_cons_iff in HO. destruct HO as [[HZ _] _]. cbn [fst] in HZ.
        rewrite <- HL in H1. cbn [clen] in H1. pose proof LB_pos. assert (0 <= i * LB) by (apply mul_nn; lia). lia. }
      subst ops. cbn [fold_left]. rewrite <- HG. split; [constructor|reflexivity].
    + rewrite <- V'. eapply composite_out; eauto. congruence.
Qed.
