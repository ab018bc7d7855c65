(** Correctness of ct_div_lshifted_mp_mp: the second division loop. *)
From Coq Require Import ZArith List Bool Lia.
Require Import Verif.Spec Verif.Monad Verif.Base Verif.Wp Verif.Pan Verif.Wx Verif.ModelLimb Verif.LimbFacts Verif.LimbFacts2 Verif.LDivFacts
  Verif.ModelBuf Verif.SpecBuf Verif.BufFacts Verif.BufFacts2 Verif.BufFacts3 Verif.CompFacts Verif.UpFacts Verif.ShiftFacts Verif.MulFacts
  Verif.ModelDiv Verif.SpecDiv Verif.DivFacts Verif.DivFacts2 Verif.DivFacts3 Verif.DivFacts4 Verif.DivFacts6 Verif.DivFacts7 Verif.DivFacts8 Verif.DivFacts9.
Import ListNotations.
Open Scope Z_scope.

Section Facts.
Context {c : cfg}.

(** The remainder in the second loop: all limbs but the highest one are in the
    buffer, the highest one is in the shadow. *)
Definition lrem (d : mp_divisor) (R : Z) (u : mp) (h : Z) : Prop :=
  mp_ok u /\ h = vlimb R (dvn d - 1) /\ mpval u mod B ^ (dvn d - 1) = R mod B ^ (dvn d - 1) /\ mpval u / B ^ dvn d = 0.

Lemma wx_lsh_step2 : forall e0 d q0 U Qv j R u h q (P : mp * Z * option mp * bool -> Prop), dv_ok d -> 0 <= U -> Qv = U / dval d ->
  0 <= j -> rems U (dval d) (dv_shift d) (j + 1) = R * B ^ (j + 1) -> lrem d R u h -> dv_len d <= mp_len u -> qtinv q0 Qv (j + 1) q -> qnl q0 j ->
  (qst e0 q0 Qv (j + 1) \/ (qover q0 Qv /\ Qv / B ^ (j + 1) = 0 /\ exists b, q0 = Some b /\ j = nlimbs b)) ->
  (qst e0 q0 Qv j -> forall u' h' q' R', same_shape u u' -> rems U (dval d) (dv_shift d) j = R' * B ^ j -> lrem d R' u' h' -> qtinv q0 Qv j q' ->
    P (u', h', q', false)) ->
  (qover q0 Qv -> forall u' h' q', mp_ok u' -> same_shape u u' -> qtinv q0 Qv (j + 1) q' -> P (u', h', q', true)) ->
  wx e0 (div_lshifted_step2 d (dvn d) j (u, h, q, false)) P.
Proof.
  intros e0 d q0 U Qv j R u h q P Hd HU EQ Hj HR (O & EH & EM & EZ) Hlen HI Hnl Hcase HF HO. unfold div_lshifted_step2.
  pose proof (dv_pos _ Hd) as (D0 & V0 & _). pose proof (dvo_n _ Hd) as Hn. pose proof (dvo_s _ Hd) as Hs. pose proof (dvo_V _ Hd) as VB.
  pf (rems_bound U (dval d) (dv_shift d) (j + 1)) as RB. pf (Bpow_pos j) as BJ. pose proof B_gt as BG. rewrite HR in RB.
  assert (EV' : dval d * 2 ^ dv_shift d = dvV d) by reflexivity. rewrite EV' in RB.
  assert (R0 : 0 <= R < dvV d). { pf (Bpow_pos (j + 1)) as BJ1. clear - RB BJ1. split; [apply (mul_le_cancel (B ^ (j + 1))); lia|apply (mul_lt_cancel (B ^ (j + 1))); lia]. }
  set (Y := R * B). assert (YB : 0 <= Y < dvV d * B). { unfold Y. split; [apply mul_nn; lia|apply Z.mul_lt_mono_pos_r; lia]. }
  assert (HY : rems U (dval d) (dv_shift d) (j + 1) = Y * B ^ j). { rewrite HR, Bpow_S by auto. unfold Y. ring. }
  assert (LY : forall i, 0 <= i -> vlimb Y (i + 1) = vlimb R i) by (intros; apply vlimb_shift; auto).
  assert (LY0 : vlimb Y 0 = 0) by apply vlimb_shift_0. assert (DY : Y / B = R) by (unfold Y; apply Z.div_mul; lia). clearbody Y. clear HR RB.
  assert (ML : (dvn d - 1) * LB <= mp_len u). { pose proof (dvo_len _ Hd). pf (ct_mp_nlimbs_spec (dv_len d)) as NS. fold (dvn d) in NS. lia. }
  set (n := dvn d) in *. set (V := dvV d) in *.
  xb. apply wp_mono with (Q := fun u1 => u1 = vlimb Y (n - 1)).
  { xm; intros E.
    - apply Z.leb_le in E. pf (mul_le_l LB (n - 2 + 1) (n - 1)) as X. pose proof LB_pos. apply wp_load_full; auto; [lia|lia|].
      rewrite limb_vlimb. replace (n - 1) with (n - 2 + 1) by lia. rewrite LY by lia. apply vlimb_ext_mod with (j := n - 1); auto; lia.
    - apply Z.leb_gt in E. xr. replace (n - 1) with 0 by lia. auto. }
  intros u1 ->.
  xb. apply wp_mono with (Q := fun u2 => isl u2 /\ (2 <= n -> u2 = vlimb Y (n - 2))).
  { xm; intros E.
    - apply Z.leb_le in E. pf (mul_le_l LB (n - 3 + 1) (n - 1)) as X. pose proof LB_pos. apply wp_load_full; auto; [lia|lia|].
      split; [apply limb_isl|]. intros _. rewrite limb_vlimb. replace (n - 2) with (n - 3 + 1) by lia. rewrite LY by lia. apply vlimb_ext_mod with (j := n - 1); auto; lia.
    - apply Z.leb_gt in E. xr. split; [apply isl_0|]. intros. replace (n - 2) with 0 by lia. auto. }
  intros u2 (I2 & E2). assert (EHn : h = vlimb Y n). { rewrite EH. replace n with (n - 1 + 1) at 2 by lia. rewrite LY by lia. auto. }
  rewrite EHn. xb. apply wp_estimate with (U := Y); auto. intros e He. pose proof He as (Ie & _). fold V in He.
  xb; apply wp_usub; [lia|].
  (* subtraction *)
  xb. apply wp_shsub with (Y := Y); auto; [fold n; lia|rewrite DY; auto|].
  intros r1 bd cy bo T O1 S1 DV1 M1 DS Ib SI. fold V in SI.
  xb; apply wp_sub_qv; auto; [fold n; lia|apply vlimb_isl|]. intros bd1 cy1 bo1 x1 DS1 Ib1 Ix1 Ex1. fold V in Ex1.
  replace (n - 1 + 1) with n in DS1 by lia. apply (dvst_end d bd1 cy1 Hd) in DS1. subst cy1. xb; apply wp_dassert; [reflexivity|].
  assert (SI1 : subinv Y e V 0 n bo1 (T + (x1 - vlimb T (n - 1 + 0)) * B ^ (n - 1 + 0))).
  { replace n with (n - 1 + 1) at 1 by lia. apply subinv_step with (bo := bo); auto; try lia. rewrite Z.add_0_r, (sub_limb Y e V (n - 1) bo T) by (auto; lia). lia. }
  rewrite Z.add_0_r in SI1. set (T' := T + (x1 - vlimb T (n - 1)) * B ^ (n - 1)) in *.
  assert (L1 : vlimb T' (n - 1) = x1) by (apply upd_limb; auto; lia).
  assert (LM : T' mod B ^ (n - 1) = T mod B ^ (n - 1)). { unfold T'. apply upd_mod'. lia. }
  assert (LT : vlimb T' n = vlimb Y n) by (apply (sub_limb Y e V n bo1); auto; lia).
  xb; apply wp_sub_l; [apply vlimb_isl|auto|]. intros x Hx Ex. set (b := vlimb Y n <? bo1) in *.
  destruct (sub_final Y e V 0 n bo1 T' x (b2z b)) as (F1 & F2 & F3 & F4); auto; try lia.
  { rewrite Z.pow_0_r, Z.div_1_r. auto. } { destruct b; auto. } { rewrite Z.add_0_r, LT. lia. }
  rewrite !Z.add_0_r, Z.pow_0_r, !Z.mul_1_r in *. set (T1 := T' + (x - vlimb T' n) * B ^ n) in *.
  assert (L1' : vlimb T1 (n - 1) = x1) by (unfold T1; rewrite upd_limb_other by lia; auto).
  assert (LM' : T1 mod B ^ (n - 1) = mpval r1 mod B ^ (n - 1)). { unfold T1. rewrite upd_mod' by lia. rewrite LM. auto. }
  xb. eapply wp_lc_new with (b := b); [auto|].
  destruct (rem_step U (dval d) (dv_shift d) j (e - b2z b) ((Y - (e - b2z b) * V) * B ^ j)) as (G1 & G2); auto; try lia.
  { rewrite EV'. split; [apply mul_nn; lia|apply Z.mul_lt_mono_pos_r; lia]. }
  apply wx_bindx. apply wx_store_q with (q0 := q0) (Qv := Qv); auto.
  { subst Qv. apply Z.div_pos; lia. } { rewrite EQ. auto. }
  2:{ intros. xr. eapply HO; eauto. }
  intros FT q' HI'.
  assert (ML1 : (n - 1) * LB <= mp_len r1) by (rewrite (shape_len _ _ S1); auto).
  xb; apply wp_winadd with (T1 := T1); auto; [fold n; lia|].
  intros r2 bd2 cy2 T2 O2 S2 DV2 MM2 DI2 Cy2 Cz2 AI2.
  pose proof (shape_trans _ _ _ S1 S2) as S02. set (s := dv_shift d) in *. destruct (scale_pow s Hs) as (P1 & P2 & _).
  xb; apply wp_add_v; auto; [fold n; lia|]. intros bd4 cy4 y1 DI4 Cy4 Cz4 Iy1 Ey1. fold s in Cy4. xr.
  assert (AI3 : addinv T1 (dval d) s b 0 n cy4 (T2 + (y1 - vlimb T2 (n - 1 + 0)) * B ^ (n - 1 + 0))).
  { replace n with (n - 1 + 1) at 1 by lia. apply addinv_step with (cy := cy2); auto; try lia. rewrite Z.add_0_r, (add_limb T1 (dval d) s b (n - 1) cy2 T2) by (auto; lia). rewrite L1'. auto. }
  rewrite Z.add_0_r in AI3. set (T3 := T2 + (y1 - vlimb T2 (n - 1)) * B ^ (n - 1)) in *.
  assert (Y1 : vlimb T3 (n - 1) = y1) by (apply upd_limb; auto; lia).
  assert (MT3 : T3 mod B ^ (n - 1) = T2 mod B ^ (n - 1)) by (apply upd_mod'; lia).
  pose proof (vlimb_isl T3 n) as IT. unfold isl in IT.
  assert (AF : T3 + ((vlimb T3 n + cy4) mod B - vlimb T3 n) * B ^ n = Y - (e - b2z b) * V).
  { pose proof (Z_div_mod_eq_full (vlimb T3 n + cy4) B) as DM. pf (Z.mod_pos_bound (vlimb T3 n + cy4) B) as MB.
    assert (KK : (vlimb T3 n + cy4) / B = 0 \/ (vlimb T3 n + cy4) / B = 1).
    { assert (0 <= (vlimb T3 n + cy4) / B < 2); [|lia]. clear - IT Cy4 P1 P2 BG. split; [apply Z.div_pos; lia|apply Z.div_lt_upper_bound; lia]. }
    pose proof (add_final Y T1 e (dval d) s b 0 n cy4 T3 ((vlimb T3 n + cy4) mod B) ((vlimb T3 n + cy4) / B)) as AF.
    rewrite !Z.add_0_r, Z.pow_0_r, !Z.mul_1_r in AF. change (dval d * 2 ^ s) with V in AF. apply AF; auto; lia. }
  apply HF with (R' := Y - (e - b2z b) * V); auto. split; auto. fold n.
  set (R1 := Y - (e - b2z b) * V) in *. rewrite <- AF. set (tx := (vlimb T3 n + cy4) mod B).
  split; [rewrite upd_limb_other by lia; auto|]. split.
  - rewrite upd_mod' by lia. rewrite MT3. auto.
  - replace n with (n - 1 + 1) by lia. rewrite (div_ext_S _ (mpval u) (n - 1)); [replace (n - 1 + 1) with n by lia; auto|lia|]. congruence.
Qed.

End Facts.
