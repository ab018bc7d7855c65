(** Correctness of ct_div_lshifted_mp_mp: the function as a whole. *)
From Coq Require Import ZArith List Bool Lia.
Require Import Verif.Spec Verif.Monad Verif.Base Verif.Wp Verif.Pan Verif.Wx Verif.ModelLimb Verif.LimbFacts Verif.LimbFacts2 Verif.LDivFacts
  Verif.ModelBuf Verif.SpecBuf Verif.BufFacts Verif.BufFacts2 Verif.BufFacts3 Verif.CompFacts Verif.UpFacts Verif.ModelShift Verif.ShiftFacts Verif.MulFacts
  Verif.ModelDiv Verif.SpecDiv Verif.DivFacts Verif.DivFacts2 Verif.DivFacts3 Verif.DivFacts4 Verif.DivFacts6 Verif.DivFacts7 Verif.DivFacts8 Verif.DivFacts9 Verif.DivFacts10 Verif.DivFacts11.
Import ListNotations.
Open Scope Z_scope.

Section Facts.
Context {c : cfg}.

Lemma mod_ext_le : forall v w k l, 0 <= k <= l -> v mod B ^ l = w mod B ^ l -> v mod B ^ k = w mod B ^ k.
Proof.
  intros v w k l H E. pf (Bpow_pos k). pf (Bpow_pos (l - k)). replace l with (k + (l - k)) in E by lia. rewrite Z.pow_add_r in E by lia.
  apply (f_equal (fun x => x mod B ^ k)) in E. rewrite <- !Znumtheory.Zmod_div_mod in E; try lia; auto; exists (B ^ (l - k)); ring.
Qed.

(** Between the two loops: the remainder of the head of the dividend. *)
Lemma wx_lsh_mid : forall e0 TT d u0 u sh T (K : mp -> Z -> M TT) (P : TT -> Prop), dv_ok d -> mp_ok u0 -> dv_len d <= mp_len u0 ->
  let l := nlimbs u0 - 1 in lst l u0 u sh T -> 0 <= T < dvV d ->
  (forall u' h, same_shape u0 u' -> lrem d T u' h -> wx e0 (K u' h) P) ->
  wx e0 (dassert (nth 2 sh 0 =? 0) ;;
  dassert (nth 1 sh 0 =? 0) ;;
  let! u :=
    mif dvn d <? nlimbs u0 then
      dassert (nth 0 sh 0 =? 0) ;;
      store_l u l 0
    else ret u in
  let! _ := zfor (dvn d) l (fun i _ =>
    dassert_m (let! x := load_l_full u i in ret (x =? 0))) tt in
  let! u_high_shadow :=
    mif dvn d - 1 =? nlimbs u0 - 1 then ret (nth 0 sh 0) else load_l_full u (dvn d - 1) in
  K u u_high_shadow) P.
Proof.
  intros e0 TT d u0 u sh T K P Hd Hu HL l HS HT HK. pose proof (dvo_n _ Hd) as Hn. pose proof (dvo_V _ Hd) as VB. pose proof LB_pos as LP.
  assert (NL : dvn d <= nlimbs u0). { unfold nlimbs. apply nlimbs_len_mono. pose proof (dvo_len _ Hd). lia. }
  set (n := dvn d) in *. assert (Hl : 0 <= l) by (unfold l; lia). assert (EL : nlimbs u0 = l + 1) by (unfold l; lia).
  assert (VO : forall i, n <= i -> vlimb T i = 0) by (intros; apply vlimb_out with (n := n); lia).
  destruct (lst_high u0 l Hl u sh T 2 HS) as [H2 _]; [lia|]. destruct (lst_high u0 l Hl u sh T 1 HS) as [H1 _]; [lia|]. destruct (lst_high u0 l Hl u sh T 0 HS) as [H0 _]; [lia|].
  change (Z.to_nat 2) with 2%nat in H2. change (Z.to_nat 1) with 1%nat in H1. change (Z.to_nat 0) with 0%nat in H0. rewrite Z.add_0_r in H0.
  xb; apply wp_dassert; [apply Z.eqb_eq; rewrite H2; apply VO; lia|]. xb; apply wp_dassert; [apply Z.eqb_eq; rewrite H1; apply VO; lia|].
  assert (MM : mpval u mod B ^ l = T mod B ^ l). { destruct HS as (_ & _ & a0 & a1 & a2 & _ & _ & _ & _ & ->). symmetry. apply lohi_mod. apply Z.mod_pos_bound. apply Bpow_pos; auto. }
  pose proof HS as (Ou & Su & _). assert (ELu : nlimbs u = l + 1) by (rewrite <- EL; unfold nlimbs; rewrite (shape_len _ _ Su); auto).
  pf (mpval_bound_B u) as UB. rewrite ELu in UB.
  xb. apply wp_mono with (Q := fun u1 => mp_ok u1 /\ same_shape u0 u1 /\ mpval u1 mod B ^ l = T mod B ^ l /\ mpval u1 / B ^ n = 0).
  { xm; intros E.
    - apply Z.ltb_lt in E. xb; apply wp_dassert; [apply Z.eqb_eq; rewrite H0; apply VO; lia|].
      apply wp_store; auto; [lia|pf (lim_pos u l) as LPs; lia|]. intros u1 (O1 & S1 & E1). split; auto. split; [eapply shape_trans; eauto|]. rewrite limb_vlimb in E1.
      assert (EU : mpval u1 = T mod B ^ l).
      { rewrite <- MM, E1. pose proof (Z_div_mod_eq_full (mpval u) (B ^ l)) as DM. rewrite Bpow_S in UB by lia. pf (Bpow_pos l) as BL. unfold vlimb. rewrite (Z.mod_small (mpval u / B ^ l)); [lia|].
        split; [apply Z.div_pos; lia|apply Z.div_lt_upper_bound; lia]. }
      pf (Bpow_pos l) as BL. pf (Z.pow_le_mono_r B n l) as PM. pose proof B_pos.
      rewrite EU. split; [apply Z.mod_mod; lia|]. rewrite (Z.mod_small T) by lia. apply Z.div_small. lia.
    - apply Z.ltb_ge in E. xr. split; auto. split; auto. split; auto. replace n with (l + 1) by lia. apply Z.div_small. auto. }
  intros u1 (O1 & S1 & M1 & D1).
  assert (LF : forall i, 0 <= i < l -> (i + 1) * LB <= mp_len u1). { intros i Hi. rewrite (shape_len _ _ S1). pf (nlimbs_spec u0) as NS. pf (mul_le_l LB (i + 1) l). destruct (Z.eq_dec (mp_len u0) 0); [pose proof (dvo_len _ Hd); lia|]. unfold l in *. lia. }
  xb. apply wp_mono with (Q := fun _ => True).
  { destruct (Z.le_gt_cases l n); [apply wp_for_empty; auto|]. eapply wp_for with (I := fun _ _ => True); auto; [lia|].
    intros i [] Hi _. apply wp_dassert_m; auto. xb; apply wp_load_full; auto; [lia|apply LF; lia|]. xr. apply Z.eqb_eq. rewrite limb_vlimb. rewrite (vlimb_ext_mod _ T i l) by (auto; lia). apply VO. lia. }
  intros [] _. xb. apply wp_mono with (Q := fun h => h = vlimb T (n - 1)).
  { xm; intros E.
    - apply Z.eqb_eq in E. xr. rewrite H0. f_equal. unfold l. lia.
    - apply Z.eqb_neq in E. apply wp_load_full; auto; [lia|apply LF; unfold l; lia|]. rewrite limb_vlimb. apply vlimb_ext_mod with (j := l); auto. unfold l. lia. }
  intros h ->. apply HK; auto. split; auto. split; auto. split; auto. fold n. unfold l in *. apply mod_ext_le with (l := nlimbs u0 - 1); auto; lia.
Qed.

Lemma wx_div_lsh : forall e0 u a e d q_out (P : result unit div_err * mp * option mp -> Prop),
  mp_ok u -> dv_ok d -> q_ok q_out -> 0 <= a <= mp_len u -> mpval u < 256 ^ a -> 0 <= e -> a + e + LB < 2 ^ UW ->
  let U := mpval u * 256 ^ e in let D := dval d in let ul := a + e in
  let short := match q_out with Some b => mp_len b + dv_len d < ul | None => False end in
  let rshort := mp_len u < Z.min (dv_len d) ul in
  (short \/ rshort \/ qgood q_out (U / D) \/ qover q_out (U / D) \/ e0 = true) ->
  (short -> P (Err InsufficientQuotientSpace, u, q_out)) ->
  (~ short -> rshort -> P (Err InsufficientRemainderSpace, u, q_out)) ->
  (~ short -> ~ rshort -> qgood q_out (U / D) -> forall u' q', mp_ok u' -> same_shape u u' -> o_same q_out q' ->
     mpval u' = U mod D -> q_is q' (qtr q_out (U / D)) -> P (Ok tt, u', q')) ->
  (~ short -> ~ rshort -> qover q_out (U / D) -> forall u' q', mp_ok u' -> same_shape u u' -> o_same q_out q' ->
     P (Err InsufficientQuotientSpace, u', q')) ->
  wx e0 (ct_div_lshifted_mp_mp u a e d q_out) P.
Proof.
  intros e0 u a e d q_out P Hu Hd Hq Ha Hua He He8 U D ul short rshort Hcase HS HR HF HO. unfold ct_div_lshifted_mp_mp.
  pose proof (dv_pos _ Hd) as (D0 & V0 & _). fold D in D0. pose proof (dvo_bytes _ Hd) as DY. fold D in DY. pose proof (dvo_len _ Hd) as DL.
  pose proof (dvo_s _ Hd) as Hs. pose proof (dvo_n _ Hd) as Hn. pose proof LB_pos as LP. pf (mpval_bound u) as UB0. pf (p256_pos e) as PE. pf (p256_pos a) as PA.
  assert (U0 : 0 <= U) by (unfold U; apply mul_nn; lia).
  assert (UUB : U < 256 ^ ul). { unfold U, ul. rewrite Z.pow_add_r by lia. apply Z.mul_lt_mono_pos_r; lia. }
  xb; apply wp_dassert; [apply Z.leb_le; lia|].
  xb; apply wp_uadd; [lia|]. fold ul.
  xb. apply wp_mono with (Q := fun b => b = true /\ short \/ b = false /\ ~ short).
  { unfold q_too_short, short. destruct q_out as [b|]; [|xr; tauto]. xm; intros E; xr.
    - left. apply Z.ltb_lt in E. auto.
    - right. apply Z.ltb_ge in E. split; auto. lia. }
  intros sh [[-> SH]|[-> NS]]. { xr. auto. }
  xm; intros ERS. { xr. apply HR; auto. apply Z.ltb_lt in ERS. auto. }
  apply Z.ltb_ge in ERS. assert (NR : ~ rshort) by (unfold rshort; lia). specialize (HF NS NR). specialize (HO NS NR).
  destruct Hcase as [|[|Hcase]]; try tauto. set (Qv := U / D) in *. clear HS HR. assert (Q0 : 0 <= Qv) by (apply Z.div_pos; lia).
  xm; intros EL.
  { apply Z.ltb_lt in EL. assert (UD : U < D). { pf (Z.pow_le_mono_r 256 ul (dv_len d - 1)). lia. }
    assert (EQ : Qv = 0) by (apply Z.div_small; lia).
    pose proof (proj2 (dvo_v _ Hd)) as VL. assert (E8 : 0 <= 8 * e < 2 ^ UW) by (unfold ul in EL; lia).
    xb; apply wp_umul; [auto|]. xb; apply wp_lshift; [auto|exact E8|]. intros u' (O1 & S1 & E1).
    replace (2 ^ (8 * e)) with (256 ^ e) in E1 by (rewrite Z.pow_mul_r by lia; auto). fold U in E1.
    rewrite Z.mod_small in E1; [|pf (Z.pow_le_mono_r 256 ul (mp_len u)); lia].
    xb; apply wp_q_clear; [auto|lia|]. intros q' Hq'. xr. apply HF; auto.
    - rewrite EQ. apply qgood_0.
    - destruct q_out, q'; cbn; tauto.
    - rewrite E1, Z.mod_small; auto.
    - rewrite EQ, qtr_0. destruct q_out, q'; cbn; try tauto. destruct Hq' as (_ & _ & ->). apply Z.mod_1_r. }
  apply Z.ltb_ge in EL. assert (LU : dv_len d <= mp_len u) by lia. clear ERS NR rshort.
  xb; apply wp_uadd; [unfold ul; lia|]. xb; apply wp_usub; [lia|]. xb; apply wp_unlimbs; [unfold ul; lia|].
  destruct (lsh_head_facts (mp_len u) a e (dv_len d)) as (H0B & EH0 & F0 & HB & HM & TE & T0 & HN & VH & QE); [auto|auto|lia|auto|].
  set (h0 := e mod LB) in *. set (room := mp_len u - a + LB - h0) in *. set (f := ct_mp_nlimbs (room + 1) - 1) in *. set (head := Z.min (f * LB) (e - h0) + h0) in *.
  set (t := (e - head) / LB) in *. fold ul in QE. set (m := ct_mp_nlimbs (ul + 1 - dv_len d)) in *.
  destruct (q_max_facts (a + head) (dv_len d)) as (M1 & M2); [lia|]. fold (dvn d) in *. set (mh := ct_mp_nlimbs (a + head + 1 - dv_len d)) in *. set (n := dvn d) in *.
  pf (q_bound U D (dv_len d) ul) as QB. fold Qv in QB. pf (p256_B (ul + 1 - dv_len d)) as PB. fold m in PB.
  assert (QM1 : Qv < B ^ m) by (clear - QB PB; lia). assert (QM : qtr q_out Qv / B ^ m = 0). { pose proof (qtr_le q_out Qv Q0). apply Z.div_small; lia. }
  apply (q_start e0 q_out Qv (ul + 1 - dv_len d)) in Hcase; [|lia|lia]. fold m in Hcase.
  assert (QM' : Qv / B ^ m = 0) by (apply Z.div_small; lia).
  xb; apply wp_q_clear; [auto|lia|]. intros q1 Hq1.
  assert (QI : qtinv q_out Qv m q1).
  { unfold qtinv. destruct q_out as [b|], q1 as [b1|]; auto. destruct Hq1 as (O1 & S1 & E1). split; auto. split; auto. rewrite QM, E1.
    apply Z.div_small. pf (p256_pos (ul + 1 - dv_len d)). pf (Z.mod_pos_bound (mpval b) (256 ^ (ul + 1 - dv_len d))) as MB. lia. }
  clear Hq1 QB PB.
  xb; apply wp_usub; [lia|]. xb; apply wp_usub; [lia|]. xb; apply wp_usub; [lia|]. fold room.
  xb; apply wp_usub; [unfold f in F0; lia|]. fold f. fold head. xb; apply wp_dassert; [apply Z.eqb_eq; auto|].
  xb; apply wp_usub; [lia|].
  assert (H8 : 0 <= 8 * head < 2 ^ UW). { pose proof (proj2 Hu) as X1. pose proof UW_big as X2. assert (X3 : LB <= 8) by (unfold LB; destruct (limb64 c); lia). clear - HB HN X1 X2 X3 Ha. change (2 ^ 32) with 4294967296 in X2. lia. }
  xb; apply wp_lshift; [auto|exact H8|]. intros u1 (O1 & S1 & E1). replace (2 ^ (8 * head)) with (256 ^ head) in * by (rewrite Z.pow_mul_r by lia; auto).
  pose proof (shape_len _ _ S1) as L1. pf (p256_pos head) as PH.
  set (Uh := mpval u * 256 ^ head) in *. assert (Uh0 : 0 <= Uh) by (unfold Uh; apply mul_nn; lia).
  assert (UE : U = Uh * B ^ t). { unfold U, Uh. replace e with (head + LB * t) at 1 by lia. rewrite Z.pow_add_r, Z.pow_mul_r by lia. rewrite <- B_256'. ring. }
  assert (UhB : Uh / 256 ^ mp_len u < B).
  { pf (p256_pos (mp_len u) (mp_len_nonneg u)) as PU. apply Z.div_lt_upper_bound; [auto|]. rewrite B_256'. rewrite <- Z.pow_add_r by lia.
    assert (Uh < 256 ^ (a + head)) by (unfold Uh; rewrite Z.pow_add_r by lia; apply Z.mul_lt_mono_pos_r; lia). pf (Z.pow_le_mono_r 256 (a + head) (mp_len u + LB)). lia. }
  assert (OB : 0 <= Uh / 256 ^ mp_len u) by (apply Z.div_pos; [lia|apply p256_pos; lia]). rewrite (Z.mod_small _ _ (conj OB UhB)). set (out := Uh / 256 ^ mp_len u) in *.
  assert (EUh : Uh = mpval u1 + 256 ^ mp_len u1 * out). { rewrite E1, L1. pose proof (Z_div_mod_eq_full Uh (256 ^ mp_len u)). unfold out. lia. }
  assert (ND : n <= nlimbs u1). { unfold nlimbs, n, dvn. rewrite L1. apply nlimbs_len_mono. lia. }
  fold (nlimbs u1). xb; apply wp_usub; [lia|].
  xb; apply wp_lsh_shadow; [auto|lia|unfold isl; lia|]. intros sh0 sh1 I0 I1 ES. rewrite <- EUh in ES.
  clear EUh OB UhB. clearbody out. clear E1 HM H0B EH0 F0 UUB UB0 PE PA DY. assert (N1 : 1 <= nlimbs u1) by (clear - ND Hn; lia).
  assert (EQm : 2 ^ dv_shift d * U = rems U D (dv_shift d) m). { unfold rems. rewrite Z.mod_small; [lia|]. split; [lia|].
    assert (X : U < D * (Qv + 1)) by (unfold Qv; pose proof (Z.mul_succ_div_gt U D); lia). pf (mul_le_l D (Qv + 1) (B ^ m)) as X2. clear - X X2. lia. }
  eapply (wx_lsh_scale e0 _ d u1 sh0 sh1 Uh); [auto|auto|auto|auto|auto|auto|]. clear sh0 sh1 I0 I1 ES. intros u2 sh0 sh1 sh2 LS. cbv beta zeta.
  fold t. clearbody t. xb; apply wp_usub; [clear - QE M1 T0; lia|]. replace (m - t) with mh by (clear - QE; lia).
  clear TE. 
  set (s := dv_shift d) in *. set (l := nlimbs u1 - 1) in *. assert (El : nlimbs u1 = l + 1) by (unfold l; lia). assert (Hl : 0 <= l) by (clear - ND Hn El; lia).
  assert (NB : n + mh <= l + 3). { assert (ct_mp_nlimbs (a + head) <= l + 2); [|lia]. replace (l + 2) with (1 + nlimbs u1) by lia. unfold nlimbs. rewrite <- nlimbs_add_aligned by lia. apply nlimbs_len_mono. rewrite L1. clear - HN VH DL. lia. }
  clear HN. clearbody l. rewrite El. clear M2 Uh0 LP PH HB VH.
  assert (QN : match q_out with Some b => m <= nlimbs b + 1 | None => True end).
  { clear - NS EL. unfold short, m in *. destruct q_out as [b|]; auto. pose proof (mp_len_nonneg b). pose proof LB_pos.
    pf (nlimbs_len_mono (ul + 1 - dv_len d) (mp_len b + LB)) as NM.
    replace (mp_len b + LB) with (1 * LB + mp_len b) in NM by (clear; lia). rewrite nlimbs_add_aligned in NM by lia. fold (nlimbs b) in NM. lia. }
  apply wx_bindx. eapply wx_for_down with (I := fun j '(u, sh, q, failed) => mp_ok u /\ same_shape u1 u /\
    if failed : bool then qover q_out Qv /\ o_same q_out q
    else exists T, lst l u1 u sh T /\ T * B ^ t = rems U D s (t + j) /\ qtinv q_out Qv (t + j) q /\ (qst e0 q_out Qv (t + j) \/ qover q_out Qv /\ j = mh)).
  { lia. }
  { split; [apply LS|]. split; [apply LS|]. exists (Uh * 2 ^ s). split; auto. replace (t + mh) with m by lia. split; [rewrite <- EQm, UE; ring|]. split; auto. destruct Hcase; auto. }
  { intros j [[[u3 sh] q] failed] Hj (O3 & S3 & HI). destruct failed; [xr; auto|]. destruct HI as (T & LT & ET & I2 & I3).
    replace (t + (j + 1)) with (t + j + 1) in * by lia.
    apply wx_lsh_step1 with (u0 := u1) (q0 := q_out) (U := U) (Qv := Qv) (T0 := T); auto; try lia.
    - unfold qnl. destruct q_out; auto. clear - QN QE Hj. lia.
    - destruct I3 as [|[OV E]]; auto. right. split; auto. replace (t + j + 1) with m by (clear - E QE; lia). split; auto.
      unfold qover in OV. destruct q_out as [b|]; [|contradiction]. exists b. split; auto.
      assert (NBm : nlimbs b < m); [|clear - NBm E QN QE; lia]. destruct (Z.lt_ge_cases (nlimbs b) m); auto.
      pf (Z.pow_le_mono_r B m (nlimbs b)). pose proof B_pos. lia.
    - intros F u4 sh4 q4 T4 LT4 ET4 Q4. split; [apply LT4|]. split; [apply LT4|]. exists T4. split; auto. 
    - intros OV u4 sh4 q4 O4 S4 Q4. split; auto. split; auto. split; auto. eapply qtinv_same; eauto. }
  intros [[[u3 sh] q3] failed] (O3 & S3 & HI). destruct failed.
  { destruct HI as (OV & SQ). xr. apply HO; auto. eapply shape_trans; eauto. }
  destruct HI as (T & LT & ET & I2 & I3). assert (FT0 : qst e0 q_out Qv (t + 0)) by (destruct I3 as [I3|[_ I3]]; auto; clear - M1 I3; lia). rewrite Z.add_0_r in *. clear I3 LS EQm.
  assert (RT : 0 <= T < dvV d). { pf (rems_bound U D s t) as RB. change (D * 2 ^ s) with (dvV d) in RB. rewrite <- ET in RB. pf (Bpow_pos t) as BT. clear - RB BT.
    split; [apply (mul_le_cancel (B ^ t)); lia|apply (mul_lt_cancel (B ^ t)); lia]. }
  rewrite <- El. replace l with (nlimbs u1 - 1) in * by lia.
  eapply (wx_lsh_mid e0 _ d u1 u3 sh T); [auto|auto|lia|auto|auto|]. clear u3 sh O3 S3 LT u2 sh0 sh1 sh2. intros u3 h S3 LR.
  apply wx_bindx. eapply wx_for_down with (I := fun j '(u, h, q, failed) => same_shape u1 u /\
    if failed : bool then qover q_out Qv /\ mp_ok u /\ o_same q_out q
    else exists R, rems U D s j = R * B ^ j /\ lrem d R u h /\ qtinv q_out Qv j q /\ qst e0 q_out Qv j).
  { lia. } { split; auto. exists T. auto. }
  { intros j [[[u4 h4] q4] failed] Hj (S4 & HI). destruct failed; [xr; auto|]. destruct HI as (R & ER & LR4 & I4 & IQ).
    apply wx_lsh_step2 with (q0 := q_out) (U := U) (Qv := Qv) (R := R); auto; try lia.
    - rewrite (shape_len _ _ S4). lia.
    - unfold qnl. destruct q_out; auto. clear - QN QE Hj M1. lia.
    - intros FT5 u5 h5 q5 R5 S5 ER5 LR5 I6. split; [eapply shape_trans; eauto|]. exists R5. auto.
    - intros OV u5 h5 q5 O5 S5 I5. split; [eapply shape_trans; eauto|]. split; auto. split; auto. eapply qtinv_same; eauto. }
  intros [[[u4 h4] q4] failed] (S4 & HI). destruct failed.
  { destruct HI as (OV & OO & SQ). xr. apply HO; auto. eapply shape_trans; eauto. }
  destruct HI as (X & EX & LX & I4 & I5). apply qst_0 in I5; [|auto]. rewrite Z.pow_0_r, Z.mul_1_r in EX. clear T ET RT LR.
  pf (rems_bound U D s 0) as RB. rewrite Z.pow_0_r, Z.mul_1_r in RB. change (D * 2 ^ s) with (dvV d) in RB. rewrite EX in RB.
  assert (XE : X = 2 ^ s * (U mod D)) by (rewrite <- EX; unfold rems; rewrite Z.pow_0_r, Z.mul_1_r; auto).
  destruct (scale_pow s Hs) as (SP1 & _). assert (RE : X / 2 ^ s = U mod D) by (rewrite XE, Z.mul_comm, Z.div_mul by lia; auto).
  pf (Z.mod_pos_bound U D) as RM. pose proof (dvo_bytes _ Hd) as DY. fold D in DY. pose proof (dv_pos _ Hd) as (_ & _ & _ & DB). fold D in DB. pose proof (dvo_V _ Hd) as VB. fold n in VB, DB.
  eapply (wx_lsh_unscale e0 _ d X u4 h4); [auto|fold n; lia|auto|rewrite (shape_len _ _ S4); lia| | |]; fold n s; rewrite ?RE.
  { lia. } { rewrite (shape_len _ _ S4), L1. pf (Z.pow_le_mono_r 256 (dv_len d) (mp_len u)). lia. }
  intros u5 O5 S5 E5. xr. apply HF; auto.
  - eapply shape_trans; [eauto|]. eapply shape_trans; eauto.
  - eapply qtinv_same; eauto.
  - unfold qtinv in I4. destruct q_out, q4; cbn; try contradiction; auto. destruct I4 as (_ & _ & E). rewrite Z.pow_0_r, !Z.div_1_r in E. auto.
Qed.

Lemma wp_div_lsh : forall u a e d q_out (P : result unit div_err * mp * option mp -> Prop),
  mp_ok u -> dv_ok d -> q_ok q_out -> 0 <= a <= mp_len u -> mpval u < 256 ^ a -> 0 <= e -> a + e + LB < 2 ^ UW ->
  let U := mpval u * 256 ^ e in let D := dval d in let ul := a + e in
  let short := match q_out with Some b => mp_len b + dv_len d < ul | None => False end in
  let rshort := mp_len u < Z.min (dv_len d) ul in
  (short \/ rshort \/ qfit q_out (U / D) \/ qover q_out (U / D)) ->
  (short -> P (Err InsufficientQuotientSpace, u, q_out)) ->
  (~ short -> rshort -> P (Err InsufficientRemainderSpace, u, q_out)) ->
  (~ short -> ~ rshort -> qfit q_out (U / D) -> forall u' q', mp_ok u' -> same_shape u u' -> o_same q_out q' ->
     mpval u' = U mod D -> q_is q' (U / D) -> P (Ok tt, u', q')) ->
  (~ short -> ~ rshort -> qover q_out (U / D) -> forall u' q', mp_ok u' -> same_shape u u' -> o_same q_out q' ->
     P (Err InsufficientQuotientSpace, u', q')) ->
  wp (ct_div_lshifted_mp_mp u a e d q_out) P.
Proof.
  intros u a e d q_out P Hu Hd Hq Ha Hua He He8 U D ul short rshort Hcase HS HR HF HO. apply wp_wx, wx_div_lsh; auto; fold U D; fold ul; fold short; fold rshort.
  - destruct Hcase as [|[|[H|H]]]; auto. right. right. left. apply qfit_good. auto.
  - intros NS NR G r' q' O1 S1 S2 E1 E2. destruct Hcase as [H|[H|[H|H]]]; [contradiction|contradiction| |exfalso; eapply qgood_over; eauto].
    apply HF; auto. rewrite qtr_fit in E2; auto. pose proof (dv_pos _ Hd) as (D0 & _). apply Z.div_pos; [|auto]. pose proof (mpval_bound u Hu). unfold U. apply mul_nn; [lia|]. apply Z.pow_nonneg. lia.
Qed.
End Facts.
