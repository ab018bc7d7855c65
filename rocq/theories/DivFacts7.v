(** Correctness of ct_div_pow2_mp. *)
From Coq Require Import ZArith List Bool Lia.
Require Import Verif.Spec Verif.Monad Verif.Base Verif.Wp Verif.Pan Verif.Wx Verif.ModelLimb Verif.LimbFacts Verif.LimbFacts2 Verif.LDivFacts
  Verif.ModelBuf Verif.SpecBuf Verif.BufFacts Verif.BufFacts2 Verif.BufFacts3 Verif.CompFacts Verif.UpFacts Verif.ShiftFacts Verif.MulFacts
  Verif.ModelDiv Verif.SpecDiv Verif.DivFacts Verif.DivFacts2 Verif.DivFacts3 Verif.DivFacts4 Verif.DivFacts6.
Import ListNotations.
Open Scope Z_scope.

Lemma zfor_max : forall S hi (body : Z -> S -> M S) s, zfor 0 hi body s = zfor 0 (Z.max 0 hi) body s.
Proof. intros. unfold zfor. f_equal. lia. Qed.

Section Facts.
Context {c : cfg}.

Lemma vlimb_shift : forall R i, 0 <= i -> vlimb (R * B) (i + 1) = vlimb R i.
Proof.
  intros R i Hi. unfold vlimb. pf (Bpow_pos i). pose proof B_pos. rewrite Bpow_S by auto. rewrite <- Z.div_div by lia. rewrite Z.div_mul by lia. auto.
Qed.
Lemma vlimb_shift_0 : forall R, vlimb (R * B) 0 = 0.
Proof. intros. unfold vlimb. rewrite Z.pow_0_r, Z.div_1_r. apply Z.mod_mul. pose proof B_pos; lia. Qed.

(** The window before a step: limbs n, n - 1 of Y in the shadow, the limbs below but the last one in the buffer. *)
Definition wm (d : mp_divisor) : Z := Z.max 0 (dvn d - 2).
Definition pwin (d : mp_divisor) (Y : Z) (r : mp) (sh0 sh1 : Z) : Prop :=
  mp_ok r /\ sh1 = vlimb Y (dvn d) /\ sh0 = vlimb Y (dvn d - 1) /\ (2 <= dvn d -> vlimb Y 0 = 0) /\ mpval r = (Y / B) mod B ^ wm d.
(** The window after a step. *)
Definition prem (d : mp_divisor) (R : Z) (r : mp) (sh0 sh1 : Z) : Prop :=
  mp_ok r /\ sh1 = vlimb R (dvn d - 1) /\ sh0 = (if 2 <=? dvn d then vlimb R (dvn d - 2) else 0) /\ mpval r = R mod B ^ wm d.

Lemma prem_pwin : forall d R r sh0 sh1, dv_ok d -> prem d R r sh0 sh1 -> pwin d (R * B) r sh0 sh1.
Proof.
  intros d R r sh0 sh1 Hd (O & E1 & E0 & EV). pose proof (dvo_n _ Hd). pose proof B_pos. split; auto.
  split. { rewrite E1, <- vlimb_shift by lia. f_equal. lia. }
  split. { rewrite E0. destruct (Z.leb_spec 2 (dvn d)).
    - rewrite <- vlimb_shift by lia. f_equal. lia.
    - replace (dvn d - 1) with 0 by lia. rewrite vlimb_shift_0. auto. }
  split; [intros; apply vlimb_shift_0|]. rewrite Z.div_mul by lia. auto.
Qed.

Lemma sub_limb : forall T0 q V i bo T k, 0 <= i <= k -> subinv T0 q V 0 i bo T -> vlimb T k = vlimb T0 k.
Proof. intros T0 q V i bo T k Hi [_ E]. apply vlimb_ext_div with (j := i); [|lia]. rewrite Z.add_0_r in E. auto. Qed.
Lemma add_limb : forall T0 D s b i cy T k, 0 <= i <= k -> addinv T0 D s b 0 i cy T -> vlimb T k = vlimb T0 k.
Proof. intros T0 D s b i cy T k Hi [_ E]. apply vlimb_ext_div with (j := i); [|lia]. rewrite Z.add_0_r in E. auto. Qed.
Lemma mod_small_eq : forall v w m, 0 <= m -> v / B ^ m = 0 -> v mod B ^ m = w mod B ^ m -> v = w mod B ^ m.
Proof. intros v w m Hm E1 E2. pf (Bpow_pos m). pose proof (div0_bound v (B ^ m)). rewrite Z.mod_small in E2 by lia. auto. Qed.
Lemma upd_mod' : forall T k x j, 0 <= j <= k -> (T + (x - vlimb T k) * B ^ k) mod B ^ j = T mod B ^ j.
Proof.
  intros T k x j H. pf (Bpow_pos j). replace (B ^ k) with (B ^ (k - j) * B ^ j) by (rewrite <- Z.pow_add_r by lia; f_equal; lia).
  rewrite Z.mul_assoc. apply Z.mod_add. lia.
Qed.
Lemma upd_limb_other : forall T k x j, 0 <= j < k -> vlimb (T + (x - vlimb T k) * B ^ k) j = vlimb T j.
Proof. intros. apply vlimb_ext_mod with (j := k); [|lia]. apply upd_mod'. lia. Qed.
Lemma div_mod_0 : forall v m, 0 <= m -> (v mod B ^ m) / B ^ m = 0.
Proof. intros v m Hm. pf (Bpow_pos m). pf (Z.mod_pos_bound v (B ^ m)). apply Z.div_small. lia. Qed.

Lemma wx_pow2_step : forall e0 d q0 U Qv j Y r sh0 sh1 q (P : mp * Z * Z * option mp * bool -> Prop), dv_ok d -> 0 <= U -> Qv = U / dval d ->
  0 <= j -> rems U (dval d) (dv_shift d) (j + 1) = Y * B ^ j -> pwin d Y r sh0 sh1 -> dv_len d <= mp_len r -> qtinv q0 Qv (j + 1) q -> qnl q0 j ->
  (qst e0 q0 Qv (j + 1) \/ (qover q0 Qv /\ Qv / B ^ (j + 1) = 0 /\ exists b, q0 = Some b /\ j = nlimbs b)) ->
  (qst e0 q0 Qv j -> forall r' sh0' sh1' q' R, same_shape r r' -> rems U (dval d) (dv_shift d) j = R * B ^ j -> prem d R r' sh0' sh1' -> qtinv q0 Qv j q' ->
    P (r', sh0', sh1', q', false)) ->
  (qover q0 Qv -> forall r' sh0' sh1' q', mp_ok r' -> same_shape r r' -> qtinv q0 Qv (j + 1) q' -> P (r', sh0', sh1', q', true)) ->
  wx e0 (div_pow2_step d (dvn d) j (r, sh0, sh1, q, false)) P.
Proof.
  intros e0 d q0 U Qv j Y r sh0 sh1 q P Hd HU EQ Hj HR (O & E1 & E0 & Ez & EV) Hlen HI Hnl Hcase HF HO. unfold div_pow2_step.
  pose proof (dv_pos _ Hd) as (D0 & V0 & _). pose proof (dvo_n _ Hd) as Hn. pose proof (dvo_s _ Hd) as Hs. pose proof (dvo_V _ Hd) as VB.
  pf (rems_bound U (dval d) (dv_shift d) (j + 1)) as RB. pf (Bpow_pos j) as BJ. pose proof B_gt as BG. rewrite HR in RB.
  assert (EV' : dval d * 2 ^ dv_shift d = dvV d) by reflexivity. rewrite EV' in RB.
  assert (YB : 0 <= Y < dvV d * B).
  { rewrite Bpow_S in RB by auto. split; [apply (mul_le_cancel (B ^ j)); lia|apply (mul_lt_cancel (B ^ j)); lia]. }
  assert (MB : 0 <= wm d /\ wm d * LB <= mp_len r).
  { unfold wm. pose proof LB_pos. split; [lia|]. destruct (Z.le_gt_cases (dvn d) 2); [rewrite Z.max_l by lia; pose proof (mp_len_nonneg r); lia|].
    rewrite Z.max_r by lia. pose proof (dvo_len _ Hd). pf (ct_mp_nlimbs_spec (dv_len d)) as NS. fold (dvn d) in NS. lia. }
  destruct MB as [M0 ML]. set (n := dvn d) in *. set (V := dvV d) in *.
  xb. apply wp_mono with (Q := fun u2 => isl u2 /\ (2 <= n -> u2 = vlimb Y (n - 2))).
  { xm; intros E.
    - apply Z.ltb_lt in E. assert (EM : wm d = n - 2) by (unfold wm; fold n; lia). apply wp_load_full; auto; [lia|rewrite EM in ML; lia|]. split; [apply limb_isl|]. intros _.
      rewrite limb_vlimb, EV, limb_of_mod by lia. rewrite <- (limb_of_div Y (n - 2) 1) by lia. rewrite Z.pow_1_r. f_equal.
    - apply Z.ltb_ge in E. xr. split; [apply isl_0|]. intros. replace (n - 2) with 0 by lia. symmetry. auto. }
  intros u2 (I2 & E2). xb. apply wp_estimate with (U := Y); auto. intros e He. pose proof He as (Ie & _). fold V in He.
  (* subtraction *)
  xb. apply wp_mono with (Q := fun '(r1, bd, cy, bo, i, x0) => i = n - 1 /\ mp_ok r1 /\ same_shape r r1 /\ dvst d (n - 1) bd cy /\ isl bo /\
    exists T, subinv Y e V 0 (n - 1) bo T /\ mpval r1 = T mod B ^ wm d /\ x0 = (if 2 <=? n then vlimb T (n - 2) else 0)).
  { xm; intros E.
    - apply Z.leb_le in E. assert (EM : wm d = n - 2) by (unfold wm; fold n; lia). rewrite EM in *.
      replace (Z.leb 2 n) with true by (symmetry; apply Z.leb_le; auto).
      xb. apply wp_shsub with (Y := Y); auto; [lia|rewrite EV; apply Z.mod_mod; pf (Bpow_pos (n - 2)); lia|symmetry; auto|].
      intros r1 bd cy bo T O1 S1 D1 M1 DS Ib SI. fold V in SI. rewrite EV, div_mod_0 in D1 by auto. apply mod_small_eq in M1; auto.
      xb; apply wp_sub_qv; auto; [lia|apply vlimb_isl|]. intros bd' cy' bo' x DS' Ib' Ix Ex. fold V in Ex.
      replace (n - 2 + 1) with (n - 1) in * by lia. xr.
      split; auto. split; auto. split; auto. split; auto. split; auto. exists (T + (x - vlimb T (n - 2 + 0)) * B ^ (n - 2 + 0)).
      split. { replace (n - 1) with (n - 2 + 1) by lia. apply subinv_step with (bo := bo); auto; try lia. rewrite Z.add_0_r, (sub_limb Y e V (n - 2) bo T) by (auto; lia). auto. }
      rewrite Z.add_0_r. rewrite upd_mod, upd_limb by (auto; lia). auto.
    - apply Z.leb_gt in E. xr. assert (EM : wm d = 0) by (unfold wm; fold n; lia). assert (N1 : n - 1 = 0) by lia. rewrite EM, N1 in *.
      replace (Z.leb 2 n) with false by (symmetry; apply Z.leb_gt; auto).
      split; auto. split; auto. split; [apply shape_refl|]. split; [apply dvst_init; auto|]. split; [apply isl_0|]. exists Y. split; [apply subinv_init|].
      rewrite EV, Z.pow_0_r, !Z.mod_1_r. auto. }
  intros [[[[[r1 bd] cy] bo] i] x0] (-> & O1 & S1 & DS & Ib & T & SI & M1 & EX0).
  xb; apply wp_dassert; [apply Z.eqb_eq; lia|]. cbv zeta.
  xb; apply wp_sub_qv; auto; [lia|rewrite E0; apply vlimb_isl|]. intros bd1 cy1 bo1 x1 DS1 Ib1 Ix1 Ex1. fold V in Ex1.
  replace (n - 1 + 1) with n in DS1 by lia. apply (dvst_end d bd1 cy1 Hd) in DS1. subst cy1. xb; apply wp_dassert; [reflexivity|].
  assert (SI1 : subinv Y e V 0 n bo1 (T + (x1 - vlimb T (n - 1 + 0)) * B ^ (n - 1 + 0))).
  { replace n with (n - 1 + 1) at 1 by lia. apply subinv_step with (bo := bo); auto; try lia. rewrite Z.add_0_r, (sub_limb Y e V (n - 1) bo T) by (auto; lia). lia. }
  rewrite Z.add_0_r in SI1. set (T' := T + (x1 - vlimb T (n - 1)) * B ^ (n - 1)) in *.
  assert (L1 : vlimb T' (n - 1) = x1) by (apply upd_limb; auto; lia).
  assert (L0 : 2 <= n -> vlimb T' (n - 2) = x0). { intros. unfold T'. rewrite upd_limb_other by lia. rewrite EX0. replace (2 <=? n) with true by (symmetry; apply Z.leb_le; auto). auto. }
  assert (LM : T' mod B ^ wm d = T mod B ^ wm d). { unfold T'. apply upd_mod'. unfold wm; fold n. lia. }
  assert (LT : vlimb T' n = sh1) by (rewrite E1; apply (sub_limb Y e V n bo1); auto; lia).
  xb; apply wp_sub_l; [rewrite E1; apply vlimb_isl|auto|]. intros x Hx Ex. set (b := sh1 <? bo1) in *.
  destruct (sub_final Y e V 0 n bo1 T' x (b2z b)) as (F1 & F2 & F3 & F4); auto; try lia.
  { rewrite Z.pow_0_r, Z.div_1_r. auto. } { destruct b; auto. } { rewrite Z.add_0_r, LT. lia. }
  rewrite Z.add_0_r, Z.pow_0_r, !Z.mul_1_r in *. set (T1 := T' + (x - vlimb T' n) * B ^ n) in *.
  assert (L1' : vlimb T1 (n - 1) = x1) by (unfold T1; rewrite upd_limb_other by lia; auto).
  assert (L0' : 2 <= n -> vlimb T1 (n - 2) = x0) by (intros; unfold T1; rewrite upd_limb_other by lia; auto).
  assert (LM' : T1 mod B ^ wm d = mpval r1). { unfold T1. rewrite upd_mod' by (unfold wm; fold n; lia). rewrite LM. auto. }
  assert (LTx : vlimb T1 n = x) by (apply upd_limb; auto; lia).
  xb; apply wp_dassert.
  { destruct b eqn:Eb; [reflexivity|]. cbn [b2z] in *. change (negb (0 =? 0)) with false. cbn [orb]. apply Z.eqb_eq. rewrite <- LTx.
    replace (B * 0) with 0 in Ex by lia. apply vlimb_out with (n := n); lia. }
  xb. eapply wp_lc_new with (b := b); [auto|].
  destruct (rem_step U (dval d) (dv_shift d) j (e - b2z b) ((Y - (e - b2z b) * V) * B ^ j)) as (G1 & G2); auto; try lia.
  { rewrite EV'. split; [apply mul_nn; lia|apply Z.mul_lt_mono_pos_r; lia]. }
  apply wx_bindx. apply wx_store_q with (q0 := q0) (Qv := Qv); auto.
  { subst Qv. apply Z.div_pos; lia. } { rewrite EQ. auto. }
  2:{ intros. xr. eapply HO; eauto. }
  intros FT q' HI'. rewrite (zfor_max _ (n - 2)). fold n in M0. change (Z.max 0 (n - 2)) with (wm d).
  assert (ML1 : wm d * LB <= mp_len r1) by (rewrite (shape_len _ _ S1); auto).
  assert (MN : wm d <= n) by (unfold wm; fold n; lia).
  xb; apply wp_winadd with (T1 := T1); auto. { rewrite <- LM', Z.mod_mod by (pf (Bpow_pos (wm d)); lia). auto. }
  intros r2 bd2 cy2 T2 O2 S2 DV2 MM2 DI2 Cy2 Cz2 AI2. assert (R1S : mpval r1 / B ^ wm d = 0) by (rewrite M1; apply div_mod_0; auto).
  rewrite R1S in DV2. apply mod_small_eq in MM2; auto.
  pose proof (shape_trans _ _ _ S1 S2) as S02. set (s := dv_shift d) in *. destruct (scale_pow s Hs) as (P1 & P2 & _).
  xb. apply wp_mono with (Q := fun '(sh, bd3, cy3, i) => i = n /\ 0 <= cy3 <= 2 ^ s /\ exists T3 y0 y1, sh = [y0; y1] /\ addinv T1 (dval d) s b 0 n cy3 T3 /\
    vlimb T3 (n - 1) = y1 /\ y0 = (if 2 <=? n then vlimb T3 (n - 2) else 0) /\ T3 mod B ^ wm d = T2 mod B ^ wm d).
  { destruct (Z.le_gt_cases 2 n) as [N2|N1].
    - replace (2 <=? n) with true by (symmetry; apply Z.leb_le; auto). assert (EM : wm d = n - 2) by (unfold wm; fold n; lia). fold (wm d). rewrite EM in *. rewrite Z.min_r by lia.
      replace (Z.leb 2 n) with true in EX0 by (symmetry; apply Z.leb_le; auto).
      apply wp_for_step; [lia|]. xb; apply wp_usub; [lia|]. replace (2 + 0 - 2) with 0 by lia. cbn [znth]. 
      xb. xr. xb; apply wp_add_v; auto; [lia|rewrite <- L0' by auto; apply vlimb_isl|].
      intros bd3 cy3 y0 DI3 Cy3 Cz3 Iy0 Ey0. xb. xr. xr.
      assert (AI3 : addinv T1 (dval d) s b 0 (n - 2 + 1) cy3 (T2 + (y0 - vlimb T2 (n - 2 + 0)) * B ^ (n - 2 + 0))).
      { apply addinv_step with (cy := cy2); auto; try lia. rewrite Z.add_0_r, (add_limb T1 (dval d) s b (n - 2) cy2 T2) by (auto; lia). rewrite L0' by auto. auto. }
      rewrite Z.add_0_r in AI3. set (T3 := T2 + (y0 - vlimb T2 (n - 2)) * B ^ (n - 2)) in *. replace (n - 2 + 1) with (n - 1) in * by lia.
      apply wp_for_step; [lia|]. xb; apply wp_usub; [lia|]. replace (2 + (0 + 1) - 2) with 1 by lia. change (splice [x0; x1] 0 [y0]) with [y0; x1].
      xb. xr. change (nth (Z.to_nat 1) [y0; x1] 0) with x1. xb; apply wp_add_v; auto; [lia|].
      intros bd4 cy4 y1 DI4 Cy4 Cz4 Iy1 Ey1. xb. xr. xr. apply wp_for_empty; [lia|].
      split; [lia|]. split; auto. exists (T3 + (y1 - vlimb T3 (n - 1 + 0)) * B ^ (n - 1 + 0)), y0, y1. split; auto. split.
      { replace n with (n - 1 + 1) at 1 by lia. apply addinv_step with (cy := cy3); auto; try lia. rewrite Z.add_0_r, (add_limb T1 (dval d) s b (n - 1) cy3 T3) by (auto; lia). rewrite L1'. auto. }
      rewrite Z.add_0_r. split; [apply upd_limb; auto; lia|]. rewrite upd_limb_other by lia. split; [unfold T3; rewrite upd_limb by (auto; lia); auto|].
      rewrite upd_mod' by lia. unfold T3. apply upd_mod'. lia.
    - replace (2 <=? n) with false by (symmetry; apply Z.leb_gt; auto). assert (EM : wm d = 0) by (unfold wm; fold n; lia). fold (wm d). rewrite EM in *. assert (EN : n = 1) by lia. rewrite EN in *.
      change (2 <=? 1) with false in EX0. cbn iota in EX0. subst x0.
      change (Z.min 1 2) with 1. apply wp_for_step; [lia|]. xb; apply wp_usub; [lia|]. replace (2 + 0 - 1) with 1 by lia.
      xb. xr. xb; apply wp_add_v; auto; [fold n; lia|].
      intros bd4 cy4 y1 DI4 Cy4 Cz4 Iy1 Ey1. xb. xr. xr. apply wp_for_empty; [lia|].
      split; [lia|]. split; auto. exists (T2 + (y1 - vlimb T2 (0 + 0)) * B ^ (0 + 0)), 0, y1. split; auto. split.
      { change 1 with (0 + 1) at 1. apply addinv_step with (cy := cy2); auto; try lia. rewrite Z.add_0_r, (add_limb T1 (dval d) s b 0 cy2 T2) by (auto; lia). change (1 - 1) with 0 in L1'. rewrite L1'. auto. }
      rewrite Z.add_0_r. split; [apply upd_limb; auto; lia|]. split; auto. rewrite Z.pow_0_r, !Z.mod_1_r. auto. }
  intros [[[sh bd3] cy3] i] (-> & Cy3 & T3 & y0 & y1 & -> & AI3 & Y1 & Y0 & MT3). xb; apply wp_dassert; [apply Z.eqb_refl|]. xr.
  cbn [nth]. pose proof (vlimb_isl T3 n) as IT. unfold isl in IT.
  assert (AF : T3 + ((vlimb T3 n + cy3) mod B - vlimb T3 n) * B ^ n = Y - (e - b2z b) * V).
  { pose proof (Z_div_mod_eq_full (vlimb T3 n + cy3) B) as DM. pf (Z.mod_pos_bound (vlimb T3 n + cy3) B) as MB.
    assert (KK : (vlimb T3 n + cy3) / B = 0 \/ (vlimb T3 n + cy3) / B = 1).
    { assert (0 <= (vlimb T3 n + cy3) / B < 2); [|lia]. split; [apply Z.div_pos; lia|apply Z.div_lt_upper_bound; lia]. }
    pose proof (add_final Y T1 e (dval d) s b 0 n cy3 T3 ((vlimb T3 n + cy3) mod B) ((vlimb T3 n + cy3) / B)) as AF.
    rewrite !Z.add_0_r, Z.pow_0_r, !Z.mul_1_r in AF. change (dval d * 2 ^ s) with V in AF. rewrite !Z.add_0_r in F1, F2. apply AF; auto; lia. }
  apply HF with (R := Y - (e - b2z b) * V); auto. split; auto.
  set (R := Y - (e - b2z b) * V) in *. rewrite <- AF. set (tx := (vlimb T3 n + cy3) mod B).
  assert (N1 : 1 <= n) by lia. split; [rewrite upd_limb_other by (fold n; lia); fold n; auto|]. fold n.
  split. { rewrite Y0. destruct (Z.leb_spec 2 n); auto. rewrite upd_limb_other by lia. auto. }
  rewrite upd_mod' by lia. rewrite MT3. auto.
Qed.
End Facts.
