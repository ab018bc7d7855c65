(** The least common multiple with a second operand of a larger announced length than the first operand has bytes. *)
From Coq Require Import ZArith List Bool Lia.
Require Import Verif.Spec Verif.Monad Verif.Base Verif.Wp Verif.Pan Verif.Wx Verif.ModelLimb Verif.LimbFacts Verif.LimbFacts2 Verif.ModelBuf Verif.SpecBuf
  Verif.BufFacts Verif.BufFacts2 Verif.BufFacts3 Verif.ModelCmp Verif.CmpFacts Verif.UpFacts Verif.AddFacts Verif.ModelShift Verif.ShiftFacts
  Verif.ModelMul Verif.MulFacts Verif.MulFacts2 Verif.ModelDiv Verif.SpecDiv Verif.DivFacts Verif.DivFacts2 Verif.DivFacts3 Verif.DivFacts4 Verif.DivProofs Verif.DivPanic
  Verif.SpecMont Verif.MontFacts5 Verif.MontFacts6 Verif.ModelEuclid Verif.SpecEuclid Verif.EuclidFacts4 Verif.ModelLcm Verif.LcmFacts Verif.BufProofs Verif.LcmProofs.
Import ListNotations.
Open Scope Z_scope.

Section Facts.
Context {c : cfg}.

Lemma wx_lcm_short : forall res op0 l0 op1 l1 scr nD, mp_ok res -> mp_ok op0 -> mp_ok op1 -> mp_ok scr -> kind_of scr = kind_of op1 ->
  debug c = false -> mut_compat op0 op1 -> gcd_len_ok (Z.max (mp_len op0) (mp_len op1)) ->
  0 < l0 <= mp_len op0 -> mp_len op0 < l1 <= mp_len op1 ->
  mpval op0 < 256 ^ l0 -> mpval op1 < 256 ^ l1 -> l0 + l1 <= mp_len res -> l0 + l1 <= mp_len scr ->
  let D := lcm_short_divisor (mpval op0) (mpval op1) l1 (mp_len op0) in let Qv := lcm_short_quotient (mpval op0) (mpval op1) l1 (mp_len op0) in
  D = 0 \/ byte_len D nD ->
  let bad := (D =? 0) || (mp_len res + nD <? whole_len op1 (l0 + l1) + whole_len op1 l1) || (B ^ nlimbs res <=? Qv) in
  wx bad (ct_lcm_mp_mp res op0 l0 op1 l1 scr) (fun o => bad = false /\ lcm_post res op0 op1 scr (Qv mod 256 ^ mp_len res) o).
Proof.
  intros res op0 n0 op1 n1 scr nD Hr H0 H1 Hs HK DBG HC HG P0 P1 V0 V1 LR LS Ds Qs HD0 bad. unfold ct_lcm_mp_mp.
  rewrite (Z.min_l n0), (Z.min_l n1) by lia.
  pose proof LB_pos as HLB. pose proof B_pos as HB. pose proof (mpval_nonneg op0 H0) as N0. pose proof (mpval_nonneg op1 H1) as N1.
  pf (p256_pos (mp_len op0)) as PL0.
  assert (BT : forall _ : unit, Ds = 0 \/ mp_len res + nD < whole_len op1 (n0 + n1) + whole_len op1 n1 \/ B ^ nlimbs res <= Qs -> bad = true).
  { intros _ X. unfold bad. rewrite !orb_true_iff, Z.eqb_eq, Z.ltb_lt, Z.leb_le. tauto. }
  assert (BF : forall _ : unit, Ds <> 0 -> whole_len op1 (n0 + n1) + whole_len op1 n1 <= mp_len res + nD -> Qs < B ^ nlimbs res -> bad = false).
  { intros _ X Y T. unfold bad. rewrite !orb_false_iff, Z.eqb_neq, Z.ltb_ge, Z.leb_gt. tauto. }
  assert (DEF : exists s, s = lcm_shift (mpval op0) (mpval op1) n1 /\ Ds = (gcd_or_one (mpval op0) (mpval op1) * 2 ^ s) mod 256 ^ mp_len op0 /\
    Qs = mpval op0 * mpval op1 * 2 ^ s / Ds).
  { eexists. split; [reflexivity|]. split; reflexivity. }
  destruct DEF as (s & Es & EDs & EQs). clearbody bad Ds Qs.
  apply wx_mif; intros E. { apply orb_true_iff in E. rewrite !Z.eqb_eq in E. lia. } clear E.
  apply wx_bind_assoc. apply wx_bind, wp_mut_compat; auto. apply wx_bind, wp_tick.
  apply wx_bind, wp_dassert_d; [congruence|].
  apply wx_mif; intros E. { apply Z.ltb_lt in E. lia. } clear E.
  apply wx_mif; intros E. { apply Z.ltb_lt in E. pf (backing_ok scr op1 (n0 + n1) HK) as BO. lia. } clear E.
  rewrite (Z.max_r n0 n1) by lia.
  apply wx_bind. apply wp_take_gen; auto; [lia|congruence|].
  pf (whole_ge op1 (n0 + n1)) as WN. pf (whole_le scr (n0 + n1)) as LSN. rewrite (whole_kind scr op1) in LSN by auto.
  rewrite (whole_kind scr op1) by auto. remember (whole_len op1 (n0 + n1)) as N eqn:EN.
  intros hi p Ohi Op Khi Kp Lp Lhi Vp Vhi.
  apply wx_bind, wp_copy_from; auto.
  { rewrite Lp. eapply Z.lt_le_trans; [exact V0|]. apply Z.pow_le_mono_r; lia. }
  intros p1 O1 S1 E1. apply wx_bind, wp_shrink_to; auto; [lia|]. intros o1 Oo1 Ko1 Lo1 Vo1.
  apply wx_bind, wp_mul_trunc; auto; [rewrite (shape_len _ _ S1); lia|].
  intros p2 (O2 & S2 & E2). rewrite (shape_len _ _ S1), Lp, E1, Vo1 in E2.
  assert (PB0 : 0 <= mpval op0 * mpval op1 < 256 ^ (n0 + n1)).
  { split; [apply mul_nn; auto|]. rewrite Z.pow_add_r by lia. pf (p256_pos n0). pf (p256_pos n1).
    apply Z.mul_lt_mono_nonneg; lia. }
  assert (PB : 0 <= mpval op0 * mpval op1 < 256 ^ N).
  { split; [lia|]. eapply Z.lt_le_trans; [apply PB0|]. apply Z.pow_le_mono_r; lia. }
  rewrite (Z.mod_small (mpval op0)) in E2 by lia. rewrite Z.mod_small in E2 by auto.
  apply wx_bind, wp_gcd; auto; [lia|].
  intros gb z (Og & Sg & Eg) (Oz & Sz & Ez).
  set (x := mpval op0) in *. set (y := mpval op1) in *. set (G := gcd_or_one x y) in *.
  pose proof (gcd_or_one_pos x y N0 N1) as GP. fold G in GP.
  assert (GL : G < 256 ^ n1).
  { apply gcd_or_one_lt.
    - split; [auto|]. eapply Z.lt_le_trans; [exact V0|]. apply Z.pow_le_mono_r; lia.
    - split; auto.
    - change 1 with (256 ^ 0). apply Z.pow_lt_mono_r; lia. }
  apply wx_bind, wp_dassert_m.
  { apply wp_bind, wp_is_zero_mp; auto. apply wp_ret. rewrite Eg. replace (G =? 0) with false by (symmetry; apply Z.eqb_neq; lia). reflexivity. }
  apply wx_bind, wp_find_last_set_bit; auto. rewrite Eg. set (w := nbits G).
  pose proof (nbits_spec G GP) as WS. fold w in WS. pose proof (nbits_pos G GP) as WP. fold w in WP.
  assert (WL : w <= 8 * n1). { apply nbits_le; [lia|]. split; [lia|]. rewrite <- pow256 by lia. exact GL. }
  apply wx_bind, wp_usub; [lia|].
  assert (Es' : 8 * n1 - w = s).
  { rewrite Es. unfold lcm_shift, w, nbits. replace (G =? 0) with false by (symmetry; apply Z.eqb_neq; lia). unfold G, gcd_or_one. lia. }
  clear Es. rewrite Es' in *.
  assert (U0 : 16 * mp_len op1 < 2 ^ UW) by apply H1.
  assert (US : isu s) by (unfold isu; lia). assert (UWd : isu w) by (unfold isu; lia).
  pf (pow2_gt0 s) as PS. pf (pow2_gt0 w) as PW.
  assert (WW : 2 ^ w * 2 ^ s = 256 ^ n1). { rewrite <- Z.pow_add_r by lia. rewrite pow256 by lia. f_equal. lia. }
  apply wx_bind, wp_lshift; auto. rewrite Eg. intros gb' (Og' & Sg' & Eg').
  rewrite (shape_len _ _ Sg), <- EDs in Eg'.
  assert (LP2 : mp_len p2 = N) by (rewrite (shape_len _ _ S2), (shape_len _ _ S1); auto).
  assert (LG1 : n1 <= mp_len op1) by lia.
  pf (whole_le op1 n1) as WG1. pf (whole_ge op1 n1) as WG0.
  assert (HB0 : 0 <= x * y / 256 ^ (N - n1) < 256 ^ n1).
  { pf (p256_pos (N - n1)). split; [apply Z.div_pos; lia|]. apply Z.div_lt_upper_bound; [lia|].
    rewrite <- Z.pow_add_r by lia. replace (N - n1 + n1) with (N) by lia. lia. }
  apply wx_bind. apply wp_prod_high; auto; [lia|lia|unfold nlimbs; rewrite (shape_len _ _ Sz); apply nlimbs_mono; lia| |].
  { rewrite LP2, E2, (shape_len _ _ Sz). eapply Z.lt_le_trans; [apply HB0|]. apply Z.pow_le_mono_r; lia. }
  intros h (Oh & Sh & Eh). rewrite LP2, E2 in Eh.
  assert (LH : mp_len h = mp_len op1) by (rewrite (shape_len _ _ Sh), (shape_len _ _ Sz); auto).
  apply wx_bind, wp_clear_above; auto; [lia|]. intros h1 (Oh1 & Sh1 & Eh1). rewrite Eh in Eh1. rewrite Z.mod_small in Eh1 by auto.
  apply wx_bind, wp_usub; [lia|]. replace (8 * n1 - s) with w by lia.
  apply wx_bind, wp_rshift; auto. intros h2 (Oh2 & Sh2 & Eh2). rewrite Eh1 in Eh2.
  assert (HV2 : mpval h2 = x * y * 2 ^ s / 256 ^ (N)).
  { rewrite Eh2. pf (p256_pos (N - n1)). rewrite <- div_mul_div by lia.
    assert (E : 256 ^ (N) = 256 ^ (N - n1) * 2 ^ w * 2 ^ s).
    { rewrite <- Z.mul_assoc, WW, <- Z.pow_add_r by lia. f_equal. lia. }
    rewrite E. rewrite Z.div_mul_cancel_r; lia. }
  assert (HB2 : 0 <= mpval h2 < 256 ^ n1).
  { split; [apply mpval_nonneg; auto|]. rewrite Eh2. apply Z.div_lt_upper_bound; [lia|].
    pf (mul_le_l (256 ^ n1) 1 (2 ^ w)). lia. }
  assert (LH2 : mp_len h2 = mp_len op1). { rewrite (shape_len _ _ Sh2), (shape_len _ _ Sh1). auto. }
  apply wx_bind, wp_shrink_to; [auto|lia|lia|]. intros h3 Oh3 Kh3 Lh3 Vh3.
  apply wx_bind, wp_lshift; auto. intros lo (Olo & Slo & Elo). rewrite LP2, E2 in Elo.
  assert (Llo : mp_len lo = N) by (rewrite (shape_len _ _ Slo); auto).
  assert (Klo : kind_of lo = kind_of op1).
  { destruct Slo as [-> _], S2 as [-> _], S1 as [-> _]. congruence. }
  assert (Kh2 : kind_of h2 = kind_of op1).
  { destruct Sh2 as [-> _], Sh1 as [-> _], Sh as [-> _], Sz as [-> _]. reflexivity. }
  pose proof (Z.mod_pos_bound (G * 2 ^ s) (256 ^ mp_len op0) PL0) as DSB. rewrite <- EDs in DSB.
  destruct (Z.eq_dec Ds 0) as [DZ|DN].
  { replace bad with true by (symmetry; apply (BT tt); auto). apply pan_wx, pan_l, new_zero_pan; auto; try congruence.
    rewrite (shape_len _ _ Sg'), (shape_len _ _ Sg). lia. }
  destruct HD0 as [HD0|BL]; [contradiction|].
  apply wx_bind, wp_divisor_new; auto.
  { unfold isl. lia. }
  { intros _ E. exfalso. congruence. }
  { rewrite Eg'. lia. }
  intros _ dv Hdv Edv Edd.
  assert (EDv : dval dv = Ds). { unfold dval, dv_dec0. rewrite Edv, Edd. rewrite Eg'. lia. }
  pose proof (divisor_len dv Ds nD Hdv EDv BL) as DL.
  pf (p256_pos (N)) as PNN.
  assert (EU : uval (Some h3) lo = x * y * 2 ^ s).
  { unfold uval. cbn [uhval]. rewrite Vh3, HV2, Llo, Elo. pose proof (Z.div_mod (x * y * 2 ^ s) (256 ^ (N))). lia. }
  assert (EL3 : mp_len h3 = whole_len op1 n1).
  { rewrite Lh3, <- (whole_kind h2 op1) by auto. unfold shrunk_len. rewrite LH2, Z.min_l by lia. destruct h2; reflexivity. }
  apply wx_bindx. apply wx_div_mp_mp; auto.
  - split; auto. split; auto. congruence.
  - rewrite EU, EDv, <- EQs. cbn [qgood qover]. destruct (Z.lt_ge_cases Qs (B ^ nlimbs res)); auto.
  - cbn [uhlen]. intros SH. rewrite DL, Llo, EL3 in SH. replace bad with true; [apply pan_wx, pan_panic|].
    symmetry. apply (BT tt). lia.
  - intros NSH GQ uh ul q Oul Sul Suh Sq Eu Qq. rewrite EU, EDv, <- EQs in *.
    destruct uh as [uh|]; [|contradiction]. destruct q as [q|]; [|contradiction].
    destruct Suh as [Ouh Suh]. destruct Sq as [Oq Sq]. cbn [q_is qtr] in Qq.
    assert (QB : Qs < B ^ nlimbs res). { destruct GQ as [GQ|[_ GQ]]; auto. apply fit_B; auto. }
    assert (SF : bad = false). { apply (BF tt); auto. cbn [uhlen] in NSH. rewrite DL, Llo, EL3 in NSH. clear - NSH. lia. }
    unfold dassert_m. rewrite DBG. apply wx_bind, wp_ret, wx_bind, wp_ret.
    apply wx_ret. split; [exact SF|]. unfold lcm_post.
    destruct (unshrink_spec h2 uh) as (OU & SU & _); auto. { destruct Suh as [-> _]. congruence. } { rewrite (shape_len _ _ Suh). lia. }
    destruct (unshrink_spec scr ul) as (OS & SS & _); auto. { destruct Sul as [-> _]. congruence. } { rewrite (shape_len _ _ Sul). lia. }
    split; [auto|]. split; [split; auto|]. split; [auto|]. split; [eapply shape_trans; eauto|]. split; [auto|].
    split; [|auto]. eapply shape_trans; [|exact SU]. split; [congruence|lia].
  - intros _ OV. rewrite EU, EDv, <- EQs in OV. cbn [qover] in OV. intros. replace bad with true; [apply pan_wx; destruct u_h', q'; apply pan_panic|].
    symmetry. apply (BT tt). auto.
Qed.

Lemma lcm_first_short : forall res op0 l0 op1 l1 scr, mp_ok res -> mp_ok op0 -> mp_ok op1 -> mp_ok scr -> kind_of scr = kind_of op1 ->
  mut_compat op0 op1 -> gcd_len_ok (Z.max (mp_len op0) (mp_len op1)) -> 0 < l0 <= mp_len op0 -> mp_len op0 < l1 <= mp_len op1 ->
  mpval op0 < 256 ^ l0 -> mpval op1 < 256 ^ l1 -> l0 + l1 <= mp_len res -> l0 + l1 <= mp_len scr ->
  let D := lcm_short_divisor (mpval op0) (mpval op1) l1 (mp_len op0) in let q := lcm_short_quotient (mpval op0) (mpval op1) l1 (mp_len op0) in
  (debug c = true \/ D = 0 -> panics (ct_lcm_mp_mp res op0 l0 op1 l1 scr)) /\
  (debug c = false -> forall n, byte_len D n ->
   (mp_len res + n < stored_len op1 (l0 + l1) + stored_len op1 l1 \/ B ^ nlimbs res <= q -> panics (ct_lcm_mp_mp res op0 l0 op1 l1 scr)) /\
   (stored_len op1 (l0 + l1) + stored_len op1 l1 <= mp_len res + n -> q < B ^ nlimbs res ->
    yields (ct_lcm_mp_mp res op0 l0 op1 l1 scr) (fun '(r, res', op0', op1', scr') =>
      r = Ok tt /\ becomes res res' (q mod 256 ^ mp_len res) /\
      mp_ok op0' /\ same_shape op0 op0' /\ mp_ok op1' /\ same_shape op1 op1' /\ mp_ok scr' /\ same_shape scr scr'))).
Proof.
  intros res op0 l0 op1 l1 scr Hr H0 H1 Hs HK HC HG P0 P1 V0 V1 LR LS D q.
  assert (PD : debug c = true -> panics (ct_lcm_mp_mp res op0 l0 op1 l1 scr)).
  { intros HD. unfold ct_lcm_mp_mp. rewrite (Z.min_l l0), (Z.min_l l1) by lia.
    apply pan_mif; intros E. { exfalso. apply orb_true_iff in E. rewrite !Z.eqb_eq in E. lia. } clear E.
    apply pan_assoc. apply pan_wp, wp_mut_compat; auto. apply pan_wp, wp_tick.
    apply pan_l, pan_dassert; auto. apply Z.eqb_neq. lia. }
  split.
  - intros HX. destruct (debug c) eqn:DB; auto. destruct HX as [HX|HX]; [discriminate|].
    pose proof (wx_lcm_short res op0 l0 op1 l1 scr 1 Hr H0 H1 Hs HK DB HC HG P0 P1 V0 V1 LR LS) as W. cbv zeta in W. fold D q in W.
    lapply W; [clear W; intros W|auto]. rewrite HX in W. cbn [Z.eqb orb] in W. apply wx_pan. eapply wx_mono; [exact W|]. intros o [X _]. discriminate.
  - intros DB n BL. pose proof (wx_lcm_short res op0 l0 op1 l1 scr n Hr H0 H1 Hs HK DB HC HG P0 P1 V0 V1 LR LS) as W. cbv zeta in W. fold D q in W.
    lapply W; [clear W; intros W|auto]. rewrite !stored_whole by lia. split.
    + intros HX. replace (_ || _) with true in W.
      2:{ symmetry. rewrite !orb_true_iff, Z.ltb_lt, Z.leb_le. tauto. }
      apply wx_pan. eapply wx_mono; [exact W|]. intros o [X _]. discriminate.
    + intros HX HQ. replace (_ || _) with false in W.
      2:{ symmetry. rewrite !orb_false_iff, Z.ltb_ge, Z.leb_gt, Z.eqb_neq. split; [split|]; auto. destruct BL as [BL1 BL2]. pf (p256_pos (n - 1)). lia. }
      apply wp_wx in W. apply wp_yields. eapply wp_mono; [exact W|]. intros [[[[r a] b] d] e] [_ H]. exact H.
Qed.

Lemma byte_len_ex : forall v, 0 < v -> exists n, byte_len v n.
Proof.
  intros v Hv. exists (Z.log2 v / 8 + 1). pose proof (Z.log2_nonneg v) as L0. pf (Z.log2_spec v) as LS.
  pf (Z.div_mod (Z.log2 v) 8) as DM. pf (Z.mod_pos_bound (Z.log2 v) 8) as MB. pf (Z.div_pos (Z.log2 v) 8) as DP. unfold byte_len.
  rewrite !pow256 by lia. split; [lia|]. split.
  - eapply Z.le_trans; [|apply LS]. apply Z.pow_le_mono_r; lia.
  - eapply Z.lt_le_trans; [apply LS|]. apply Z.pow_le_mono_r; lia.
Qed.

Lemma short_quotient : forall x y l1 len0, 0 < x -> 0 < y -> 0 <= len0 < l1 -> x < 256 ^ l1 -> y < 256 ^ l1 -> 0 < lcm_short_divisor x y l1 len0 ->
  Z.lcm x y < lcm_short_quotient x y l1 len0 /\ lcm_short_quotient x y l1 len0 <= x * y * 256 ^ l1.
Proof.
  intros x y l1 len0 Hx Hy Hl Bx By HD. unfold lcm_short_quotient. set (s := lcm_shift x y l1) in *.
  pose proof (gcd_or_one_pos x y ltac:(lia) ltac:(lia)) as GP. pose proof (prod_div_gcd x y ltac:(lia) ltac:(lia)) as PG.
  assert (GL : gcd_or_one x y < 256 ^ l1). { apply gcd_or_one_lt; try lia. }
  pf (p256_pos len0) as PL. set (D := lcm_short_divisor x y l1 len0) in *.
  assert (DB : D < 256 ^ len0). { unfold D, lcm_short_divisor. apply Z.mod_pos_bound; auto. }
  set (G := gcd_or_one x y) in *. pf (Z.log2_spec G) as LG. pose proof (Z.log2_nonneg G) as LN.
  assert (ES : s = 8 * l1 - 1 - Z.log2 G) by reflexivity. clearbody s D G.
  assert (SP : 0 <= s).
  { rewrite pow256 in GL by lia. assert (2 ^ Z.log2 G < 2 ^ (8 * l1)) as HH by lia. apply Z.pow_lt_mono_r_iff in HH; lia. }
  pf (pow2_gt0 s) as PS.
  assert (T : 2 * 256 ^ len0 <= G * 2 ^ s).
  { apply Z.le_trans with (2 ^ Z.log2 G * 2 ^ s); [|apply Z.mul_le_mono_nonneg_r; lia]. rewrite <- Z.pow_add_r by lia.
    rewrite pow256 by lia. change 2 with (2 ^ 1) at 1. rewrite <- Z.pow_add_r by lia. apply Z.pow_le_mono_r; lia. }
  assert (LP : 0 < Z.lcm x y).
  { pose proof (Z.lcm_nonneg x y). destruct (Z.eq_dec (Z.lcm x y) 0) as [E|]; [|lia]. apply Z.lcm_eq_0 in E. lia. }
  assert (S2 : 2 ^ s <= 256 ^ l1). { rewrite pow256 by lia. apply Z.pow_le_mono_r; lia. }
  assert (XY : 0 < x * y) by (apply Z.mul_pos_pos; auto). split.
  - apply Z.lt_le_trans with (2 * Z.lcm x y); [lia|]. apply Z.div_le_lower_bound; auto. rewrite PG.
    replace (G * Z.lcm x y * 2 ^ s) with (G * 2 ^ s * Z.lcm x y) by ring. replace (D * (2 * Z.lcm x y)) with (2 * D * Z.lcm x y) by ring.
    apply Z.mul_le_mono_nonneg_r; lia.
  - apply Z.le_trans with (x * y * 2 ^ s); [|apply Z.mul_le_mono_nonneg_l; lia].
    apply Z.div_le_upper_bound; auto. pf (Z.mul_pos_pos (x * y) (2 ^ s)) as MP. pf (Z.mul_le_mono_nonneg_r 1 D (x * y * 2 ^ s)). lia.
Qed.

Lemma lcm_first_short_wrong : forall res op0 l0 op1 l1 scr, mp_ok res -> mp_ok op0 -> mp_ok op1 -> mp_ok scr -> kind_of scr = kind_of op1 ->
  mut_compat op0 op1 -> gcd_len_ok (Z.max (mp_len op0) (mp_len op1)) -> 0 < l0 <= mp_len op0 -> mp_len op0 < l1 <= mp_len op1 ->
  mpval op0 < 256 ^ l0 -> mpval op1 < 256 ^ l1 -> 0 < mpval op0 -> 0 < mpval op1 ->
  l0 + mp_len op0 + l1 <= mp_len res -> l0 + l1 <= mp_len scr ->
  panics (ct_lcm_mp_mp res op0 l0 op1 l1 scr) \/
  yields (ct_lcm_mp_mp res op0 l0 op1 l1 scr) (fun '(r, res', _, _, _) => r = Ok tt /\ mpval res' <> Z.lcm (mpval op0) (mpval op1)).
Proof.
  intros res op0 l0 op1 l1 scr Hr H0 H1 Hs HK HC HG P0 P1 V0 V1 N0 N1 LR LS. pose proof (mp_len_nonneg op0) as L0.
  pose proof (lcm_first_short res op0 l0 op1 l1 scr Hr H0 H1 Hs HK HC HG P0 P1 V0 V1) as H. cbv zeta in H.
  lapply H; [clear H; intros H|lia]. lapply H; [clear H; intros H|auto]. destruct H as [HP HY].
  set (D := lcm_short_divisor (mpval op0) (mpval op1) l1 (mp_len op0)) in *. set (q := lcm_short_quotient (mpval op0) (mpval op1) l1 (mp_len op0)) in *.
  pf (p256_pos (mp_len op0)) as PL.
  assert (D0 : 0 <= D) by (unfold D, lcm_short_divisor; apply Z.mod_pos_bound; auto).
  destruct (debug c) eqn:DB; [left; auto|]. destruct (Z.eq_dec D 0) as [DZ|DN]; [left; auto|].
  destruct (byte_len_ex D ltac:(lia)) as [n BL]. destruct (HY eq_refl n BL) as [HY1 HY2].
  assert (V1' : mpval op1 < 256 ^ mp_len op0). { destruct HC as [_ [HC|(_ & _ & HC)]]; auto. lia. }
  assert (SQ : Z.lcm (mpval op0) (mpval op1) < q /\ q <= mpval op0 * mpval op1 * 256 ^ l1).
  { apply short_quotient; auto; try lia. eapply Z.lt_le_trans; [exact V0|]. apply Z.pow_le_mono_r; lia. }
  assert (QF : q < 256 ^ mp_len res).
  { apply Z.lt_le_trans with (256 ^ l0 * 256 ^ mp_len op0 * 256 ^ l1).
    - pf (p256_pos l1) as PL1. eapply Z.le_lt_trans; [apply SQ|]. apply Z.mul_lt_mono_pos_r; auto. apply Z.mul_lt_mono_nonneg; lia.
    - rewrite <- !Z.pow_add_r by lia. apply Z.pow_le_mono_r; lia. }
  destruct (Z.le_gt_cases (stored_len op1 (l0 + l1) + stored_len op1 l1) (mp_len res + n)) as [SL|SL]; [|left; apply HY1; left; lia].
  right. pose proof (HY2 SL (fit_B res q QF)) as Y. destruct Y as ([[[[r a] b] d] e] & YR & Y1 & (_ & _ & Y2) & _). eexists. split; [exact YR|]. split; auto. rewrite Y2, Z.mod_small by (pose proof (Z.lcm_nonneg (mpval op0) (mpval op1)); lia). lia.
Qed.

End Facts.
