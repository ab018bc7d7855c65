(** What can be observed of the least common multiple. *)
From Coq Require Import ZArith List Bool Lia.
Require Import Verif.Spec Verif.Monad Verif.Base Verif.Wp Verif.LimbFacts Verif.LimbFacts2 Verif.ModelLimb Verif.ModelBuf Verif.SpecBuf Verif.BufFacts Verif.BufFacts2 Verif.BufFacts3
  Verif.ModelCmp Verif.ModelShift Verif.ShiftFacts Verif.ModelMul Verif.MulFacts Verif.MulFacts2 Verif.ModelDiv Verif.SpecDiv Verif.DivFacts Verif.DivFacts2 Verif.DivFacts3 Verif.DivFacts4 Verif.DivProofs
  Verif.SpecMont Verif.MontFacts5 Verif.ModelEuclid Verif.SpecEuclid Verif.EuclidFacts4 Verif.ModelLcm Verif.LcmFacts Verif.SpecCt
  Verif.Ct Verif.CtLimb Verif.CtBuf Verif.CtArith Verif.CtDiv Verif.CtMont Verif.CtShift Verif.CtGcd Verif.CtTop Verif.CtTop2.
Import ListNotations.
Open Scope Z_scope.

Lemma ct_okg_wp {o : obs} : forall A (P : A -> A -> Prop) (f : A -> bool) m m', ct P (okg f m) (okg f m') ->
  wp m (fun x => f x = true) -> wp m' (fun x => f x = true) -> ct P m m'.
Proof.
  intros A P f [t [a|]] [t' [a'|]] H H1 H2; unfold wp in *; cbn in H1, H2; try tauto.
  unfold okg, bind, ct in H. cbn in H. rewrite H1, H2 in H. cbn in H. rewrite !app_nil_r in H. exact H.
Qed.
Lemma ct_okd_wp {o : obs} : forall A E (P : A -> A -> Prop) (m m' : M (result A E)), ct P (okd m) (okd m') ->
  wp m (fun x => exists a, x = Ok a) -> wp m' (fun x => exists a, x = Ok a) ->
  ct (fun x y => match x, y with Ok a, Ok b => P a b | _, _ => False end) m m'.
Proof.
  intros A E P [t [a|]] [t' [a'|]] H H1 H2; unfold wp in *; cbn in H1, H2; try tauto.
  destruct H1 as [x ->], H2 as [y ->]. unfold okd, bind, ct in H. cbn in H. rewrite !app_nil_r in H. exact H.
Qed.

Section Lcm.
Context {c : cfg} {o : obs}.
Hypothesis REL : debug c = false.
Hypothesis PART : strict = false.

Lemma rct_prod_high : forall p p' h h' n, same_shape p p' -> same_shape h h' -> ct drel (lcm_prod_high p h n) (lcm_prod_high p' h' n).
Proof.
  intros p p' h h' n Hp Hh. unfold lcm_prod_high. cbv zeta. rewrite ?(rel_dassert REL). rewrite (shape_len p p' Hp).
  eapply ct_bind; [apply ct_refl; reflexivity|]. intros sb ? <-. 
  eapply ct_bind; [apply ct_refl; reflexivity|]. intros d ? <-.
  eapply ct_bind; [apply ct_refl; reflexivity|]. intros m ? <-. rewrite ?(rel_dassert REL).
  eapply ct_bind; [apply rct_load_l; auto|]. intros v v' _.
  eapply ct_bind.
  { apply ct_for with (R := drel); auto; [split; [exact Hh|exact I]|]. intros i [x y] [x' y'] _ [Hx _]. cbn [fst] in Hx. change (same_shape x x') in Hx.
    rewrite (shape_nlimbs p p' Hp).
    eapply ct_bind with (R := drel).
    { apply ct_tick; [reflexivity|]. apply ct_if; [reflexivity| |]; intros _; [apply rct_load_l; auto|apply ct_ret; exact I]. }
    intros nv nv' _. eapply ct_bind; [apply ct_lshr; auto|]. intros lo lo' _.
    eapply ct_bind; [apply ct_lshl; auto|]. intros hi hi' _.
    eapply ct_bind; [apply rct_store_l; auto; exact Hx|]. intros s s' Hs. apply ct_ret. split; [exact Hs|exact I]. }
  intros [x y] [x' y'] [Hx _]. rewrite ?(rel_dassert_m REL). apply ct_ret. exact Hx.
Qed.

Lemma okg_tick : forall X (f : X -> bool) e k, okg f (bind (tick e) k) = bind (tick e) (fun u => okg f (k u)).
Proof. intros. unfold okg. apply bind_assoc. Qed.
Ltac oki := apply okg_mif; [exact PART|reflexivity|reflexivity|]; intros _ _.

Lemma shrink_len_le : forall b n r, 0 <= n -> returns (mp_shrink_to b n) r -> mp_len r <= n + LB - 1.
Proof.
  intros b n r Hn H. unfold mp_shrink_to in H. rewrite (rel_dassert_m REL) in H. pose proof LB_pos as HLB. pose proof (mp_len_nonneg b) as HB.
  set (m := Z.min n (mp_len b)) in *. assert (M0 : 0 <= m <= n) by lia.
  destruct b as [l|l|l]; cbn [mp_shrink_to_priv mp_len] in *.
  - apply returns_bind in H. destruct H as (k & R1 & R2). apply (returns_usub REL) in R1. destruct R1 as [[? ->]|[? R1]]; [|lia].
    apply returns_bind in R2. destruct R2 as (x & R2 & R3). apply returns_slice in R2. injection R3 as <-. cbn [mp_len]. lia.
  - apply returns_bind in H. destruct H as (x & R2 & R3). apply returns_slice in R2. injection R3 as <-. cbn [mp_len]. lia.
  - apply returns_bind in H. destruct H as (x & R2 & R3). apply returns_slice in R2. injection R3 as <-. cbn [mp_len]. 
    destruct R2 as (_ & _ & ->). rewrite Z.sub_0_r. unfold ne_elements_for_len, ct_mp_limbs_align_len. rewrite Z.mod_mul, Z.div_mul by lia. cbn [Z.eqb negb].
    pose proof (ct_mp_nlimbs_spec m). lia.
Qed.

Lemma align_le : forall n, 0 <= n -> ct_mp_limbs_align_len n <= n + LB - 1.
Proof. intros n Hn. unfold ct_mp_limbs_align_len. pose proof (ct_mp_nlimbs_spec n Hn). lia. Qed.

Lemma guard_wp : forall res op0 l0 op1 l1 scr, lcm_guard res op0 l0 op1 l1 scr -> 
  wp (ct_lcm_mp_mp res op0 l0 op1 l1 scr) (lcm_post res op0 op1 scr (Z.lcm (mpval op0) (mpval op1))).
Proof.
  intros res op0 l0 op1 l1 scr (H1 & H2 & H3 & H4 & H5 & H6 & H7 & H8 & H9 & H10 & H11 & H12 & H13 & H14).
  pose proof LB_pos. apply wp_lcm; auto; try lia. intros K. split; [auto|]. pose proof (align_le (Z.max (Z.min l0 (mp_len op0)) (Z.min l1 (mp_len op1)))). lia.
Qed.

Lemma rct_lcm : forall res res' op0 op0' l0 op1 op1' l1 scr scr', same_shape res res' -> same_shape op0 op0' -> same_shape op1 op1' -> same_shape scr scr' ->
  lcm_guard res op0 l0 op1 l1 scr -> lcm_guard res' op0' l0 op1' l1 scr' ->
  (forall p p', min_twos (mpval op0) (mpval op1) p -> min_twos (mpval op0') (mpval op1') p' -> sh_ok op0 p p' /\ sh_ok op1 p p') ->
  (forall b s t, kind_of b = kind_of op0 \/ kind_of b = kind_of op1 ->
     s - t = nbits (gcd_or_one (mpval op0) (mpval op1)) - nbits (gcd_or_one (mpval op0') (mpval op1')) \/
     t - s = nbits (gcd_or_one (mpval op0) (mpval op1)) - nbits (gcd_or_one (mpval op0') (mpval op1')) -> sh_ok b s t) ->
  ct (fun _ _ => True) (okg ok_5 (ct_lcm_mp_mp res op0 l0 op1 l1 scr)) (okg ok_5 (ct_lcm_mp_mp res' op0' l0 op1' l1 scr')).
Proof.
  intros res res' op0 op0' l0 op1 op1' l1 scr scr' Sr S0 S1 Ss G G' HT HW.
  destruct G as (H1 & H2 & H3 & H4 & H5 & H6 & H7 & H8 & H9 & H10 & H11 & H12 & H13 & H14).
  destruct G' as (H1' & H2' & H3' & H4' & H5' & H6' & H7' & H8' & H9' & H10' & H11' & H12' & H13' & H14').
  unfold ct_lcm_mp_mp. pose proof LB_pos as HLB.
  pose proof (shape_len _ _ S0) as L0. pose proof (shape_len _ _ S1) as L1.
  assert (E0 : Z.min l0 (mp_len op0') = Z.min l0 (mp_len op0)) by congruence.
  assert (E1 : Z.min l1 (mp_len op1') = Z.min l1 (mp_len op1)) by congruence. rewrite E0, E1 in *. clear E0 E1.
  set (n0 := Z.min l0 (mp_len op0)) in *. set (n1 := Z.min l1 (mp_len op1)) in *.
  replace ((n0 =? 0) || (n1 =? 0)) with false by (symmetry; apply orb_false_iff; split; apply Z.eqb_neq; lia).
  rewrite !okg_tick. apply ct_tick; [reflexivity|].
  apply okg_compat; auto. rewrite ?(rel_dassert REL).
  oki. cbv zeta. oki. set (g := Z.max n0 n1) in *.
  pose proof (mpval_nonneg op0 H2) as N0. pose proof (mpval_nonneg op1 H3) as N1. pose proof (mpval_nonneg op0' H2') as N0'. pose proof (mpval_nonneg op1' H3') as N1'.
  assert (LE0 : n0 <= mp_len op0) by (unfold n0; lia). assert (LE1 : n1 <= mp_len op1) by (unfold n1; lia).
  assert (KS : forall s op, kind_of s = kind_of op -> (kind_of op = KNE -> (n0 + n1) mod LB = 0) -> supports_unaligned s = true \/ (n0 + n1) mod LB = 0).
  { intros x op HK HA. destruct x, op; try discriminate; cbn [supports_unaligned]; auto. }
  set (T := fun (k p : mp) => mp_ok p /\ mp_len p = n0 + n1 /\ kind_of p = kind_of k).
  eapply okg_bind.
  { apply ct_wp with (P := fun x => T scr (snd x)) (P' := fun x => T scr' (snd x)); [apply rct_take; auto; exact Ss| |].
    - apply wp_mp_take; auto; [lia|eapply KS; eauto|]. intros; cbn; unfold T; auto.
    - apply wp_mp_take; auto; [lia|eapply KS; eauto|]. intros; cbn; unfold T; auto. }
  intros [x0 prod] [x0' prod'] ([_ HP] & (TO & TL & TK) & (TO' & TL' & TK')). cbn [snd] in *. change (same_shape prod prod') in HP.
  eapply okg_bind.
  { apply ct_wp with (P := T scr) (P' := T scr'); [apply rct_copy_from; [exact REL|exact HP|exact S0]| |].
    - apply wp_copy_from; auto; [rewrite TL; eapply Z.lt_le_trans; [exact H10|]; apply Z.pow_le_mono_r; lia|].
      intros d Hd [K L] _. split; [auto|]. split; congruence.
    - apply wp_copy_from; auto; [rewrite TL'; eapply Z.lt_le_trans; [exact H10'|]; apply Z.pow_le_mono_r; lia|].
      intros d Hd [K L] _. split; [auto|]. split; congruence. }
  clear x0 x0' prod prod' HP TO TL TK TO' TL' TK'. intros prod prod' (HP & (TO & TL & TK) & (TO' & TL' & TK')). change (same_shape prod prod') in HP.
  eapply okg_bind.
  { apply ct_wp with (P := mp_ok) (P' := mp_ok); [apply rct_shrink_to; auto; exact S1| |]; apply wp_shrink_to; auto; lia. }
  intros low low' (HL & OL & OL'). change (same_shape low low') in HL.
  eapply okg_bind.
  { apply ct_wp with (P := T scr) (P' := T scr'); [apply rct_mul_trunc; [exact REL|exact HP|reflexivity|exact HL]| |].
    - apply wp_mul_trunc; auto; [lia|]. intros d (Hd & [K L] & _). split; [auto|]. split; congruence.
    - apply wp_mul_trunc; auto; [lia|]. intros d (Hd & [K L] & _). split; [auto|]. split; congruence. }
  clear prod prod' HP TO TL TK TO' TL' TK' low low' HL OL OL'. intros prod prod' (HP & (TO & TL & TK) & (TO' & TL' & TK')). change (same_shape prod prod') in HP.
  set (G := gcd_or_one (mpval op0) (mpval op1)) in *. set (G' := gcd_or_one (mpval op0') (mpval op1')) in *.
  eapply okg_bind.
  { apply ct_wp with (P := fun '(r, a, b) => r = Ok tt /\ becomes op0 a G /\ becomes op1 b 0)
                     (P' := fun '(r, a, b) => r = Ok tt /\ becomes op0' a G' /\ becomes op1' b 0).
    - eapply ct_okg_wp with (f := ok_3); [apply rct_gcd; auto| |].
      + apply wp_gcd; auto; [lia|split; left; lia|rewrite <- H8, Z.max_id; auto].
      + apply wp_gcd; auto; [lia|split; left; lia|rewrite <- H8', Z.max_id; auto].
    - apply wp_gcd; auto; [lia|split; left; lia|rewrite <- H8, Z.max_id; auto].
    - apply wp_gcd; auto; [lia|split; left; lia|rewrite <- H8', Z.max_id; auto]. }
  intros [[r gb] z] [[r' gb'] z'] (HR & (-> & B0 & B1) & (-> & B0' & B1')).
  destruct B0 as (Og & Sg & Eg), B0' as (Og' & Sg' & Eg'). destruct B1 as (Oz & Sz & Ez), B1' as (Oz' & Sz' & Ez').
  assert (SG : same_shape gb gb') by (destruct Sg, Sg', S0; split; congruence).
  assert (SZ : same_shape z z') by (destruct Sz, Sz', S1; split; congruence).
  rewrite ?(rel_dassert_m REL).
  assert (FG : forall x y, 0 <= x -> 0 <= y -> x < 256 ^ n0 -> y < 256 ^ n1 -> 0 < gcd_or_one x y < 256 ^ g).
  { intros x y X Y X1 Y1. split; [apply gcd_or_one_pos; auto|]. apply gcd_or_one_lt.
    - split; [auto|]. eapply Z.lt_le_trans; [exact X1|]. apply Z.pow_le_mono_r; lia.
    - split; [auto|]. eapply Z.lt_le_trans; [exact Y1|]. apply Z.pow_le_mono_r; lia.
    - change 1 with (256 ^ 0). apply Z.pow_lt_mono_r; lia. }
  pose proof (FG _ _ N0 N1 H10 H11) as GB. fold G in GB. pose proof (FG _ _ N0' N1' H10' H11') as GB'. fold G' in GB'. clear FG.
  eapply okg_bind.
  { apply ct_wp with (P := fun r => snd r = nbits G) (P' := fun r => snd r = nbits G'); [apply rct_fls_mp; auto|apply wp_find_last_set_bit; auto; rewrite Eg; reflexivity|apply wp_find_last_set_bit; auto; rewrite Eg'; reflexivity]. }
  intros [y w] [y' w'] (_ & Ew & Ew'). cbn [snd] in Ew, Ew'.
  assert (FB : forall G, 0 < G < 256 ^ g -> 0 < nbits G <= 8 * g /\ byte_len (G * 2 ^ (8 * g - nbits G)) g).
  { intros X HX. pose proof (nbits_spec X ltac:(lia)) as WS. pose proof (nbits_pos X ltac:(lia)) as WP.
    assert (WL : nbits X <= 8 * g). { apply nbits_le; [lia|]. split; [lia|]. rewrite <- pow256 by lia. lia. }
    split; [lia|]. set (s := 8 * g - nbits X). pf (pow2_gt0 s) as PS.
    assert (WW : 2 ^ nbits X * 2 ^ s = 256 ^ g). { rewrite <- Z.pow_add_r by lia. rewrite pow256 by lia. f_equal. lia. }
    split; [lia|]. split.
    - apply Z.le_trans with (2 ^ (nbits X - 1) * 2 ^ s).
      + rewrite <- Z.pow_add_r by lia. rewrite pow256 by lia. apply Z.pow_le_mono_r; lia.
      + apply Z.mul_le_mono_nonneg_r; lia.
    - rewrite <- WW. apply Z.mul_lt_mono_pos_r; lia. }
  destruct (FB G GB) as [WB BL]. destruct (FB G' GB') as [WB' BL']. clear FB. 
  eapply okg_bind_r; [apply (ct_usub REL)|]. intros s s' _ Rs Rs'.
  apply (returns_usub REL) in Rs, Rs'. destruct Rs as [[_ Rs]|[? _]]; [|lia]. destruct Rs' as [[_ Rs']|[? _]]; [|lia].
  assert (Es : s = 8 * g - nbits G) by congruence. assert (Es' : s' = 8 * g - nbits G') by congruence. rewrite <- Es in BL. rewrite <- Es' in BL'. clear Rs Rs'.
  assert (U0 : 16 * mp_len op0 < 2 ^ UW) by apply H2.
  assert (US : isu s) by (unfold isu; lia). assert (US' : isu s') by (unfold isu; lia).
  eapply okg_bind.
  { apply ct_wp with (P := fun r => becomes gb (fst r) ((G * 2 ^ s) mod 256 ^ mp_len gb)) (P' := fun r => becomes gb' (fst r) ((G' * 2 ^ s') mod 256 ^ mp_len gb')).
    - apply rct_lshift_s; auto. apply HW; [left; apply Sg|right; lia].
    - apply wp_lshift; auto. rewrite Eg. auto.
    - apply wp_lshift; auto. rewrite Eg'. auto. }
  intros [d ?] [d' ?] ([SD _] & (Od & Sd & Ed) & (Od' & Sd' & Ed')). cbn [fst] in *. change (same_shape d d') in SD.
  rewrite Z.mod_small in Ed. 2:{ rewrite (shape_len _ _ Sg). split; [pf (pow2_gt0 s); apply mul_nn; lia|]. eapply Z.lt_le_trans; [apply BL|]. apply Z.pow_le_mono_r; lia. }
  rewrite Z.mod_small in Ed'. 2:{ rewrite (shape_len _ _ Sg'). split; [pf (pow2_gt0 s'); apply mul_nn; lia|]. eapply Z.lt_le_trans; [apply BL'|]. apply Z.pow_le_mono_r; lia. }
  set (V := fun (k p : mp) => mp_ok p /\ mp_len p = mp_len k /\ kind_of p = kind_of k).
  destruct Sz as [Kz Lz], Sz' as [Kz' Lz'].
  eapply okg_bind.
  { apply ct_wp with (P := V op1) (P' := V op1'); [apply rct_prod_high; [exact HP|exact SZ]| |].
    - apply wp_prod_high_len; auto; try lia. intros h (Oh & [K L] & _). split; [auto|]. split; congruence.
    - apply wp_prod_high_len; auto; try lia. intros h (Oh & [K L] & _). split; [auto|]. split; congruence. }
  intros h h' (Hh & (VO & VL & VK) & (VO' & VL' & VK')). change (same_shape h h') in Hh.
  eapply okg_bind_r; [apply rct_clear_above; [exact Hh|reflexivity]|]. intros h1 h1' Hh1 C1 C1'. change (same_shape h1 h1') in Hh1.
  apply clear_shape in C1, C1'.
  eapply okg_bind_r; [apply (ct_usub REL)|]. intros t t' _ Rt Rt'.
  apply (returns_usub REL) in Rt, Rt'. destruct Rt as [[_ Rt]|[? _]]; [|lia]. destruct Rt' as [[_ Rt']|[? _]]; [|lia].
  eapply okg_bind.
  { apply rct_rshift_s; [exact REL|exact PART|exact Hh1|]. apply HW; [right; destruct C1; congruence|left; lia]. }
  intros [h2 ?] [h2' ?] [Hh2 _]. cbn [fst] in Hh2. change (same_shape h2 h2') in Hh2.
  eapply okg_bind_r; [apply rct_shrink_to; auto; exact Hh2|]. intros h3 h3' Hh3 RL _. change (same_shape h3 h3') in Hh3.
  apply shrink_len_le in RL; [|lia].
  eapply okg_bind.
  { apply ct_wp with (P := fun r => mp_len (fst r) = n0 + n1) (P' := fun _ => True); [apply rct_lshift_s; [exact REL|exact PART|exact HP|]; apply HW; [right; congruence|right; lia]| |].
    - apply wp_lshift; auto. intros a (_ & Sa & _). cbn [fst]. rewrite (shape_len _ _ Sa). auto.
    - apply wp_lshift; auto. }
  intros [lo ?] [lo' ?] ([Hlo _] & Llo & _). cbn [fst] in Hlo, Llo. change (same_shape lo lo') in Hlo.
  assert (PD : 0 < G * 2 ^ s) by (apply Z.mul_pos_pos; [lia|apply pow2_gt0; lia]). assert (PD' : 0 < G' * 2 ^ s') by (apply Z.mul_pos_pos; [lia|apply pow2_gt0; lia]).
  eapply okg_bind_r.
  { apply ct_okd_wp; [apply rct_divisor_new; auto|apply wp_divisor_new; auto|apply wp_divisor_new; auto].
    - apply same_byte_len_blen; auto. rewrite Ed, Ed'. intros n Hn. destruct BL as [_ BL], BL' as [_ BL'].
      split; intros Hx; (destruct (Z.le_gt_cases g n) as [L|L]; [eapply Z.lt_le_trans; [apply BL || apply BL'|]; apply Z.pow_le_mono_r; lia|]).
      + exfalso. assert (256 ^ n <= 256 ^ (g - 1)) by (apply Z.pow_le_mono_r; lia). lia.
      + exfalso. assert (256 ^ n <= 256 ^ (g - 1)) by (apply Z.pow_le_mono_r; lia). lia.
    - unfold isl. pose proof B_pos. lia.
    - intros _ E. rewrite Ed in E. lia.
    - rewrite Ed. lia.
    - intros. eauto.
    - unfold isl. pose proof B_pos. lia.
    - intros _ E. rewrite Ed' in E. lia.
    - rewrite Ed'. lia.
    - intros. eauto. }
  intros [dv|e] [dv'|e'] HD RD RD'; try contradiction. pose proof B_pos as HB.
  assert (LD : dv_len dv = g). { eapply new_dv with (dec := None); [| |exact RD|]; auto; cbn; [lia|]. rewrite Ed, Z.sub_0_r. exact BL. }
  eapply okg_bind.
  { apply rct_div; [exact REL|exact Hh3|exact Hlo|exact HD|exact Sr|]. cbn [q_room uh_len]. rewrite LD, Llo.
    pose proof (nlimbs_spec res) as NR. assert (X : mp_len h3 - g <= LB - 1) by lia.
    pose proof (ct_mp_nlimbs_spec (n0 + n1 + mp_len h3 + 1 - g)) as NX. set (N := ct_mp_nlimbs (n0 + n1 + mp_len h3 + 1 - g)) in *.
    assert (HH : N * LB < (nlimbs res + 1) * LB) by (pose proof (mp_len_nonneg h3); lia). apply Z.mul_lt_mono_pos_r in HH; lia. }
  intros [[[r a] b] q] [[[r' a'] b'] q'] (E1 & E2 & E3 & E4). cbn [fst snd] in E1, E2, E3, E4. subst r'.
  destruct r as [u|e]; [|apply okg_panic_l; auto].
  destruct a as [a|], a' as [a'|]; try contradiction; [|apply okg_panic_l; auto].
  destruct q as [q|], q' as [q'|]; try contradiction; [|apply okg_panic_l; auto].
  rewrite ?(rel_dassert_m REL). apply okg_ret; auto.
Qed.
End Lcm.

Lemma nbits_eq : forall a b, 0 < a -> 0 < b -> (forall n, 0 <= n -> (a < 2 ^ n <-> b < 2 ^ n)) -> nbits a = nbits b.
Proof.
  intros a b Ha Hb H. pose proof (nbits_spec a Ha) as A. pose proof (nbits_spec b Hb) as C. pose proof (nbits_pos a Ha). pose proof (nbits_pos b Hb).
  assert (nbits a <= nbits b). { apply nbits_le; [lia|]. split; [lia|]. apply H; lia. }
  assert (nbits b <= nbits a). { apply nbits_le; [lia|]. split; [lia|]. apply H; lia. }
  lia.
Qed.
Lemma gcd_bits : forall x y x' y', 0 <= x -> 0 <= y -> 0 <= x' -> 0 <= y' ->
  (forall n, 0 <= n -> (Z.gcd x y < 2 ^ n <-> Z.gcd x' y' < 2 ^ n)) -> nbits (gcd_or_one x y) = nbits (gcd_or_one x' y').
Proof.
  intros x y x' y' X Y X' Y' H. 
  assert (Q : forall x y, 0 <= x -> 0 <= y -> (x = 0 /\ y = 0 /\ Z.gcd x y = 0 /\ gcd_or_one x y = 1) \/ (0 < Z.gcd x y /\ gcd_or_one x y = Z.gcd x y)).
  { intros u v U V. pose proof (Z.gcd_nonneg u v). destruct (Z.eq_dec (Z.gcd u v) 0) as [E|E].
    - pose proof (Z.gcd_eq_0_l _ _ E). pose proof (Z.gcd_eq_0_r _ _ E). left. subst. auto.
    - right. split; [lia|]. unfold gcd_or_one. destruct (Z.eqb_spec u 0), (Z.eqb_spec v 0); cbn [andb]; auto. subst. cbn in E. lia. }
  destruct (Q x y X Y) as [(-> & -> & E & ->)|[E ->]], (Q x' y' X' Y') as [(-> & -> & E' & ->)|[E' ->]]; auto.
  - exfalso. destruct (H 0); [lia|]. change (2 ^ 0) with 1 in *. change (Z.gcd 0 0) with 0 in *. lia.
  - exfalso. destruct (H 0); [lia|]. change (2 ^ 0) with 1 in *. change (Z.gcd 0 0) with 0 in *. lia.
  - apply nbits_eq; auto.
Qed.
Lemma guard_ok : forall (c : cfg) res op0 l0 op1 l1 scr, lcm_guard res op0 l0 op1 l1 scr -> exists x, returns (ct_lcm_mp_mp res op0 l0 op1 l1 scr) x /\ ok_5 x = true.
Proof.
  intros c res op0 l0 op1 l1 scr H. pose proof (guard_wp _ _ _ _ _ _ H) as X. apply wp_returns in X.
  destruct X as ([[[[r a] b] d] e] & R & ->  & _). eexists. split; [exact R|reflexivity].
Qed.
Lemma ct_lcm : forall (c : cfg), debug c = false -> forall res res' op0 op0' l0 op1 op1' l1 scr scr',
  same_shape res res' -> same_shape op0 op0' -> same_shape op1 op1' -> same_shape scr scr' ->
  lcm_guard res op0 l0 op1 l1 scr -> lcm_guard res' op0' l0 op1' l1 scr' ->
  same_twos (Z.gcd (mpval op0) (mpval op1)) (Z.gcd (mpval op0') (mpval op1')) ->
  same_bit_len (Z.gcd (mpval op0) (mpval op1)) (Z.gcd (mpval op0') (mpval op1')) ->
  trace (ct_lcm_mp_mp res op0 l0 op1 l1 scr) = trace (ct_lcm_mp_mp res' op0' l0 op1' l1 scr').
Proof.
  intros c REL res res' op0 op0' l0 op1 op1' l1 scr scr' S1 S2 S3 S4 G G' HT HB.
  destruct (guard_ok _ _ _ _ _ _ _ G) as (x & X1 & X2). destruct (guard_ok _ _ _ _ _ _ _ G') as (x' & X1' & X2').
  assert (O0 : mp_ok op0) by apply G. assert (O1 : mp_ok op1) by apply G. assert (O0' : mp_ok op0') by apply G'. assert (O1' : mp_ok op1') by apply G'.
  eapply (tr_all _ ok_5); [apply rct_lcm; auto|exact X1|exact X1'|exact X2|exact X2'].
  - intros p p' P P'. assert (p = p') as <-; [|split; left; reflexivity].
    eapply min_twos_unique; eauto. intros k Hk. specialize (HT k Hk). rewrite !twos_gcd in HT by auto. rewrite !mod_twos by auto. exact HT.
  - intros b s t _ E. left. rewrite (gcd_bits _ _ (mpval op0') (mpval op1')) in E; auto using mpval_nonneg. lia.
Qed.
Lemma ct_lcm_operations : forall (c : cfg), debug c = false -> forall res res' op0 op0' l0 op1 op1' l1 scr scr',
  same_shape res res' -> zlen op0 = zlen op0' -> zlen op1 = zlen op1' -> same_shape scr scr' ->
  lcm_guard res (NE op0) l0 (NE op1) l1 scr -> lcm_guard res' (NE op0') l0 (NE op1') l1 scr' ->
  operations (ct_lcm_mp_mp res (NE op0) l0 (NE op1) l1 scr) = operations (ct_lcm_mp_mp res' (NE op0') l0 (NE op1') l1 scr').
Proof.
  intros c REL res res' op0 op0' l0 op1 op1' l1 scr scr' S1 S2 S3 S4 G G'.
  destruct (guard_ok _ _ _ _ _ _ _ G) as (x & X1 & X2). destruct (guard_ok _ _ _ _ _ _ _ G') as (x' & X1' & X2').
  eapply (tr_ops _ ok_5); [apply rct_lcm; auto; try (apply shape_ne; auto)|exact X1|exact X1'|exact X2|exact X2'].
  - intros. split; right; split; reflexivity.
  - intros b s t [E|E] _; right; (split; [reflexivity|exact E]).
Qed.
