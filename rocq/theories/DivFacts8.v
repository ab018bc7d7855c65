(** Correctness of ct_div_pow2_mp: the function as a whole. *)
From Coq Require Import ZArith List Bool Lia.
Require Import Verif.Spec Verif.Monad Verif.Base Verif.Wp Verif.Pan Verif.Wx Verif.ModelLimb Verif.LimbFacts Verif.LimbFacts2 Verif.LDivFacts
  Verif.ModelBuf Verif.SpecBuf Verif.BufFacts Verif.BufFacts2 Verif.BufFacts3 Verif.CompFacts Verif.UpFacts Verif.ShiftFacts Verif.MulFacts
  Verif.ModelDiv Verif.SpecDiv Verif.DivFacts Verif.DivFacts2 Verif.DivFacts3 Verif.DivFacts4 Verif.DivFacts6 Verif.DivFacts7.
Import ListNotations.
Open Scope Z_scope.

Lemma wp_for_down_empty : forall S lo hi (body : Z -> S -> M S) s (Q : S -> Prop), hi <= lo -> Q s -> wp (zfor_down lo hi body s) Q.
Proof.
  intros S lo hi body s Q H HQ. unfold zfor_down. replace (Z.to_nat (hi - lo)) with O by lia. cbn [for_down_aux].
  apply wp_bind, wp_tick, wp_ret. auto.
Qed.

Section Facts.
Context {c : cfg}.

Lemma q_max_facts2 : forall ul vl, 1 <= vl <= ul ->
  let m := ct_mp_nlimbs (ul + 1 - vl) in ct_mp_nlimbs ul <= ct_mp_nlimbs vl + m.
Proof.
  intros ul vl H m. pf (ct_mp_nlimbs_spec (ul + 1 - vl)) as S1. fold m in S1. pf (ct_mp_nlimbs_spec ul) as S2. pf (ct_mp_nlimbs_spec vl) as S3.
  set (a := ct_mp_nlimbs ul) in *. set (b := ct_mp_nlimbs vl) in *. destruct LB_cases as [E|E]; rewrite E in *; lia.
Qed.

Lemma pow2_len : forall k, 0 <= k -> let ul := (k + 1 + 8 - 1) / 8 in
  1 <= ul /\ 256 ^ (ul - 1) <= 2 ^ k < 256 ^ ul /\ ct_mp_nlimbs ul = k / W + 1 /\ 2 ^ k = 2 ^ (k mod W) * B ^ (k / W).
Proof.
  intros k Hk ul. unfold ul. replace (k + 1 + 8 - 1) with (k + 1 * 8) by lia. rewrite Z.div_add by lia.
  assert (E : forall n, 0 <= n -> 256 ^ n = 2 ^ (8 * n)). { intros. rewrite Z.pow_mul_r by lia. reflexivity. }
  pose proof (Z_div_mod_eq_full k 8) as DM. pf (Z.mod_pos_bound k 8) as MB. pf (Z.div_pos k 8) as DP.
  split; [lia|]. split. { rewrite !E by lia. split; [apply Z.pow_le_mono_r; lia|apply Z.pow_lt_mono_r; lia]. }
  pose proof W_pos. pf (Z.div_pos k W) as DW. pose proof (Z_div_mod_eq_full k W) as DMW. pf (Z.mod_pos_bound k W) as MW.
  split. { unfold ct_mp_nlimbs. pose proof LB_pos. replace (k / 8 + 1 + LB - 1) with (k / 8 + 1 * LB) by lia. rewrite Z.div_add by lia.
    rewrite Z.div_div by lia. unfold W. auto. }
  unfold B. rewrite <- Z.pow_mul_r, <- Z.pow_add_r by lia. f_equal. lia.
Qed.

Lemma sh_limbs : forall lo hi e, isl lo -> isl hi -> 0 <= e ->
  vlimb ((lo + hi * B) * B ^ e) e = lo /\ vlimb ((lo + hi * B) * B ^ e) (e + 1) = hi /\ (forall i, 0 <= i < e -> vlimb ((lo + hi * B) * B ^ e) i = 0).
Proof.
  intros lo hi e Ilo Ihi He. pf (Bpow_pos e) as BE. pose proof B_pos as BP. unfold isl in Ilo, Ihi. unfold vlimb. split; [|split].
  - rewrite Z.div_mul by lia. rewrite Z.mod_add by lia. apply Z.mod_small; auto.
  - rewrite Bpow_S by lia. rewrite (Z.mul_comm B), <- Z.div_div by lia. rewrite Z.div_mul by lia. rewrite Z.div_add by lia. rewrite (Z.div_small lo) by lia. apply Z.mod_small; auto.
  - intros i Hi. replace e with (e - i - 1 + 1 + i) by lia. rewrite Z.pow_add_r, Z.mul_assoc by lia. pf (Bpow_pos i). rewrite Z.div_mul by lia. rewrite Bpow_S by lia.
    replace ((lo + hi * B) * (B * B ^ (e - i - 1))) with ((lo + hi * B) * B ^ (e - i - 1) * B) by ring. apply Z.mod_mul. lia.
Qed.

Lemma sh_div : forall x e w, 0 <= w -> 0 <= e -> w <= e - 1 \/ w = 0 -> (x * B ^ e / B) mod B ^ w = 0.
Proof.
  intros x e w Hw0 He [Hw| ->]; [|rewrite Z.pow_0_r; apply Z.mod_1_r]. replace e with (e - 1 + 1) by lia. rewrite Bpow_S by lia.
  replace (x * (B * B ^ (e - 1))) with (x * B ^ (e - 1) * B) by ring. pose proof B_pos. rewrite Z.div_mul by lia.
  replace (e - 1) with (e - 1 - w + w) by lia. rewrite Z.pow_add_r, Z.mul_assoc by lia. apply Z.mod_mul. pf (Bpow_pos w). lia.
Qed.

Lemma sh_high : forall lo hi V n m un, 0 <= n -> 0 <= m -> 1 <= un -> isl lo -> isl hi -> (lo + hi * B) * B ^ (un - 1) < V * B ^ m -> V < B ^ n -> n + m = un -> hi = 0.
Proof.
  intros lo hi V n m un Hn Hm Hu Ilo Ihi RB0 VB E. destruct (Z.eq_dec hi 0) as [|NZ]; auto. exfalso.
  assert (X : (lo + hi * B) * B ^ (un - 1) < B ^ un). { eapply Z.lt_trans; [apply RB0|]. rewrite <- E, Z.pow_add_r by lia. apply Z.mul_lt_mono_pos_r; [apply Bpow_pos; lia|auto]. }
  replace un with (un - 1 + 1) in X at 2 by lia. rewrite Bpow_S in X by lia. apply Z.mul_lt_mono_pos_r in X; [|apply Bpow_pos; lia].
  unfold isl in *. clear - X NZ Ilo Ihi. pose proof (mul_le_l B 1 hi). lia.
Qed.

Lemma wx_pow2_unscale : forall e0 A d X r2 t0 t1 (K : mp * Z -> M A) (P : A -> Prop), dv_ok d -> 0 <= X < B ^ dvn d -> prem d X r2 t0 t1 -> dv_len d <= mp_len r2 ->
  let R := X / 2 ^ dv_shift d in R < B ^ dvn d -> R < 256 ^ mp_len r2 ->
  (forall r' u', mp_ok r' -> same_shape r2 r' -> mpval r' = R -> wx e0 (K (r', u')) P) ->
  wx e0 (let! '(r_out, u_h) := zfor 0 (Z.min (dvn d) 2) (fun k '(r_out, u_h) =>
    let! u_l := znth [t0; t1] (2 - 1 - k) in
    let! u_val := unscale_val d u_l u_h in
    let! i := usub (dvn d - 1) k in
    let! r_out := store_l r_out i u_val in
    ret (r_out, u_l)) (r2, 0) in
  let! x := zfor_down 2 (dvn d) (fun j '(r_out, u_h) =>
    let! u_l := load_l_full r_out (j - 2) in
    let! u_val := unscale_val d u_l u_h in
    let! r_out := store_l_full r_out (j - 2) u_val in
    ret (r_out, u_l)) (r_out, u_h) in K x) P.
Proof.
  intros e0 TT d X r2 t0 t1 K P Hd RB (OR & E1' & E0' & EV) LR R RN RF0 HP. pose proof (dvo_s _ Hd) as Hs. pose proof (dvo_n _ Hd) as Hn. pose proof (dvo_len _ Hd) as DL.
  destruct (scale_pow _ Hs) as (SP1 & _). assert (R0 : 0 <= R) by (apply Z.div_pos; lia). pose proof LB_pos as LP.
  set (n := dvn d) in *. set (s := dv_shift d) in *. assert (WM : wm d = Z.max 0 (n - 2)) by reflexivity.
  assert (RF : 0 <= R < 256 ^ mp_len r2) by lia.
  assert (NR2 : n <= nlimbs r2). { unfold nlimbs. apply nlimbs_len_mono. lia. }
  assert (VX : vlimb X n = 0) by (apply vlimb_out with (n := n); lia).
  xb. apply wp_mono with (Q := fun '(r3, uh) => mp_ok r3 /\ same_shape r2 r3 /\
    if 2 <=? n then uh = vlimb X (n - 2) /\ mpval r3 = X mod B ^ (n - 2) + B ^ (n - 2) * (R / B ^ (n - 2)) else mpval r3 = R).
  { apply wp_for_step; [lia|]. change (znth [t0; t1] (2 - 1 - 0)) with (ret t1). xb. xr. cbv beta.
    xb. rewrite E1'. match goal with |- wp (unscale_val d _ 0) ?QQ => replace (unscale_val d (vlimb X (n - 1)) 0) with (unscale_val d (vlimb X (n - 1)) (vlimb X (n - 1 + 1))) by (do 2 f_equal; replace (n - 1 + 1) with n by lia; auto) end. apply unscale_d; auto; [lia|lia|]. fold s R.
    xb; apply wp_usub; [lia|]. rewrite Z.sub_0_r. xb; apply wp_store; auto; [lia|apply fit_limb; auto; lia|].
    intros r3 (O3 & S3 & E3). xr. rewrite limb_vlimb, EV in E3.
    destruct (Z.leb_spec 2 n) as [N2|N2].
    - replace (Z.min n 2) with 2 by lia. apply wp_for_step; [lia|]. change (znth [t0; t1] (2 - 1 - (0 + 1))) with (ret t0). xb. xr.
      xb. rewrite E0'. replace (vlimb X (n - 1)) with (vlimb X (n - 2 + 1)) by (f_equal; lia). apply unscale_d; auto; [lia|lia|]. fold s R.
      xb; apply wp_usub; [lia|]. replace (n - 1 - (0 + 1)) with (n - 2) by lia.
      pose proof (shape_len _ _ S3) as L3. assert (NL3 : nlimbs r3 = nlimbs r2) by (unfold nlimbs; congruence).
      xb; apply wp_store; auto; [lia|apply fit_limb; [rewrite L3; auto|lia]|].
      intros r4 (O4 & S4 & E4). xr. apply wp_for_empty; [lia|]. split; auto. split; [eapply shape_trans; eauto|].
      split; auto. rewrite limb_vlimb, E3 in E4. rewrite E4. rewrite WM, Z.max_r in * by lia.
      pf (Bpow_pos (n - 2)) as BP. pf (Z.mod_pos_bound X (B ^ (n - 2))) as MX.
      assert (Z1 : vlimb (X mod B ^ (n - 2)) (n - 1) = 0). { apply vlimb_out with (n := n - 2); lia. }
      rewrite Z1, Z.sub_0_r.
      assert (Z2 : vlimb (X mod B ^ (n - 2) + vlimb R (n - 1) * B ^ (n - 1)) (n - 2) = 0).
      { unfold vlimb. replace (n - 1) with (n - 2 + 1) at 2 by lia. rewrite Bpow_S by lia.
        match goal with |- ((_ + ?a * (B * ?b)) / _) mod _ = 0 => replace (a * (B * b)) with (a * B * b) by ring end.
        rewrite Z.div_add by lia. rewrite Z.div_small by lia. pose proof B_pos. apply Z.mod_mul. lia. }
      rewrite Z2, Z.sub_0_r. pf (vdiv_S R (n - 2)) as VS. rewrite VS. pf (vdiv_S R (n - 1)) as VS1. replace (n - 2 + 1) with (n - 1) by lia. rewrite VS1.
      replace (n - 1 + 1) with n by lia. rewrite (Z.div_small R (B ^ n)) by lia. replace (n - 1) with (n - 2 + 1) at 2 by lia. rewrite (Bpow_S (n - 2)) by lia. ring.
    - replace (Z.min n 2) with 1 by lia. apply wp_for_empty; [lia|]. split; auto. split; auto. rewrite E3. rewrite WM, Z.max_l in * by lia.
      rewrite Z.pow_0_r, Z.mod_1_r, vlimb_0. replace (n - 1) with 0 by lia. rewrite Z.pow_0_r. unfold vlimb. rewrite Z.pow_0_r, Z.div_1_r. rewrite Z.mod_small; [lia|].
      replace n with 1 in RN by lia. rewrite Z.pow_1_r in RN. lia. }
  intros [r3 uh] (O3 & S3 & E3).
  xb. apply wp_mono with (Q := fun '(r4, _) => mp_ok r4 /\ same_shape r2 r4 /\ mpval r4 = R).
  { destruct (Z.leb_spec 2 n) as [N2|N2]; [|apply wp_for_down_empty; [lia|]; auto].
    destruct E3 as [E3u E3v].
    apply wp_mono with (Q := fun '(r4, u4) => mp_ok r4 /\ same_shape r2 r4 /\ u4 = vlimb X (2 - 2) /\ mpval r4 = X mod B ^ (2 - 2) + B ^ (2 - 2) * (R / B ^ (2 - 2))).
    2:{ intros [r4 u4] (A & A2 & _ & A3). split; auto. split; auto. rewrite A3. change (2 - 2) with 0. rewrite Z.pow_0_r, Z.mod_1_r, Z.div_1_r. lia. }
    eapply wp_for_down with (I := fun j '(r4, u4) => mp_ok r4 /\ same_shape r2 r4 /\ u4 = vlimb X (j - 2) /\ mpval r4 = X mod B ^ (j - 2) + B ^ (j - 2) * (R / B ^ (j - 2))).
    { lia. } { auto. } 2:{ auto. }
    intros j [r4 u4] Hj (A1 & A2 & A3 & A4). replace (j + 1 - 2) with (j - 2 + 1) in * by lia. destruct (unsc_write X R (j - 2)) as [W1 W2]; [lia|].
    assert (LJ : (j - 2 + 1) * LB <= mp_len r4). { rewrite (shape_len _ _ A2). pf (ct_mp_nlimbs_spec (dv_len d)) as NS1. fold (dvn d) in NS1. fold n in NS1. pf (mul_le_l LB (j - 2 + 1) (n - 1)). lia. }
    xb; apply wp_load_full; auto; [lia|]. rewrite limb_vlimb, A4, W1, A3. xb; apply unscale_d; auto; [lia|lia|]. fold s R.
    xb; apply wp_store_full; auto; [lia|apply vlimb_isl|]. intros r5 (O5 & S5 & E5). xr. split; auto. split; [eapply shape_trans; eauto|]. split; auto.
    rewrite E5, limb_vlimb, A4, W2. auto. }
  intros [r4 u4] (O4 & S4 & E4). apply HP; auto.
Qed.

Lemma wp_virtual_len : forall k (Q : Z -> Prop), 0 <= k -> pow2_exp_ok k -> Q (k / 8 + 1) -> wp (virtual_pow2_len k) Q.
Proof.
  intros k Q Hk Hb HQ. unfold virtual_pow2_len. assert (E : (k + 1 + 8 - 1) / 8 = k / 8 + 1) by (rewrite <- Z.div_add by lia; f_equal; lia).
  destruct Hb as [Hb|[D Hb]].
  - apply wp_bind, wp_uadd; [lia|]. apply wp_bind, wp_uadd; [lia|]. apply wp_bind, wp_usub; [lia|]. apply wp_ret. rewrite E. auto.
  - apply wp_bind, wp_uadd; [lia|]. destruct (Z.eq_dec (k + 9) (2 ^ UW)) as [E9|NE9].
    + unfold uadd at 1, ovf. rewrite D. replace (k + 1 + 8) with (2 ^ UW) by lia. rewrite Z.ltb_irrefl, andb_false_r.
      apply wp_bind, wp_ret. rewrite Z.mod_same by lia. apply wp_bind. unfold usub. rewrite D. change (1 <=? 0) with false. cbv iota. apply wp_ret.
      replace (0 - 1) with (2 ^ UW - 1 + (-1) * 2 ^ UW) by ring. rewrite Z.mod_add, Z.mod_small by lia. apply wp_ret.
      replace (2 ^ UW - 1) with (k + 1 + 8 - 1) by lia. rewrite E. auto.
    + apply wp_bind, wp_uadd; [lia|]. apply wp_bind, wp_usub; [lia|]. apply wp_ret. rewrite E. auto.
Qed.

Lemma wx_div_pow2 : forall e0 k r d q_out (P : result unit div_err * mp * option mp -> Prop),
  0 <= k -> pow2_exp_ok k -> mp_ok r -> dv_ok d -> q_ok q_out ->
  let U := 2 ^ k in let D := dval d in let ul := k / 8 + 1 in
  let short := match q_out with Some b => mp_len b + dv_len d < ul | None => False end in
  let rshort := mp_len r < Z.min (dv_len d) ul in
  (short \/ rshort \/ qgood q_out (U / D) \/ qover q_out (U / D) \/ e0 = true) ->
  (short -> P (Err InsufficientQuotientSpace, r, q_out)) ->
  (~ short -> rshort -> P (Err InsufficientRemainderSpace, r, q_out)) ->
  (~ short -> ~ rshort -> qgood q_out (U / D) -> forall r' q', mp_ok r' -> same_shape r r' -> o_same q_out q' ->
     mpval r' = U mod D -> q_is q' (qtr q_out (U / D)) -> P (Ok tt, r', q')) ->
  (~ short -> ~ rshort -> qover q_out (U / D) -> forall r' q', mp_ok r' -> same_shape r r' -> o_same q_out q' ->
     P (Err InsufficientQuotientSpace, r', q')) ->
  wx e0 (ct_div_pow2_mp k r d q_out) P.
Proof.
  intros e0 k r d q_out P Hk Hkb Hr Hd Hq U D ul short rshort Hcase HS HR HF HO. unfold ct_div_pow2_mp.
  xb. apply wp_virtual_len; auto. fold ul. destruct (pow2_len k Hk) as (UL & UB & UN & UE). replace ((k + 1 + 8 - 1) / 8) with ul in * by (unfold ul; rewrite <- Z.div_add by lia; f_equal; lia).
  fold U in UB, UE. pose proof (dv_pos _ Hd) as (D0 & V0 & _ & DB). fold D in D0, DB.
  pose proof (dvo_bytes _ Hd) as DY. fold D in DY. pose proof (dvo_len _ Hd) as DL. pose proof (dvo_s _ Hd) as Hs. pose proof (dvo_n _ Hd) as Hn. pose proof (dvo_V _ Hd) as VB.
  pose proof LB_pos as LP. pose proof W_pos as WP. pf (Z.mod_pos_bound k W) as KM. pf (Z.div_pos k W) as KD. pose proof (mp_len_nonneg r) as RL.
  xb. apply wp_mono with (Q := fun b => b = true /\ short \/ b = false /\ ~ short).
  { unfold q_too_short, short. destruct q_out as [b|]; [|xr; tauto]. xm; intros E; xr.
    - left. apply Z.ltb_lt in E. auto.
    - right. apply Z.ltb_ge in E. split; auto. lia. }
  intros sh [[-> SH]|[-> NS]]. { xr. auto. }
  xm; intros ERS. { xr. apply HR; auto. apply Z.ltb_lt in ERS. auto. }
  apply Z.ltb_ge in ERS. assert (NR : ~ rshort) by (unfold rshort; lia). specialize (HF NS NR). specialize (HO NS NR).
  destruct Hcase as [|[|Hcase]]; try tauto. set (Qv := U / D) in *. clear HS HR.
  assert (U0 : 0 < U) by (apply Z.pow_pos_nonneg; lia). assert (Q0 : 0 <= Qv) by (apply Z.div_pos; lia).
  xb; apply wp_clear_above; auto; [lia|]. intros r0 (O0 & S0 & E0). rewrite Z.pow_0_r, Z.mod_1_r in E0. pose proof (shape_len _ _ S0) as L0.
  set (uh := 2 ^ (k mod W)). assert (UHB : 0 < uh < B). { unfold uh, B. split; [apply Z.pow_pos_nonneg; lia|apply Z.pow_lt_mono_r; lia]. }
  xb. eapply wp_lshl; [lia|]. rewrite Z.mul_1_l. fold uh. rewrite Z.mod_small by lia.
  set (un := ct_mp_nlimbs ul) in *. assert (EU : U = uh * B ^ (un - 1)) by (rewrite UE, UN; f_equal; f_equal; lia).
  xm; intros EL.
  { apply Z.ltb_lt in EL. assert (UD : U < D). { pose proof (Z.pow_le_mono_r 256 ul (dv_len d - 1)). lia. }
    assert (EQ : Qv = 0) by (apply Z.div_small; lia).
    assert (NL : un <= nlimbs r0). { unfold nlimbs. rewrite L0. apply nlimbs_len_mono. lia. }
    assert (VU : vlimb U (un - 1) = uh). { unfold vlimb. rewrite EU, Z.div_mul by (pf (Bpow_pos (un - 1)); lia). apply Z.mod_small. lia. }
    xb; apply wp_usub; [lia|]. xb; apply wp_store; auto; [lia| |].
    { rewrite <- VU. apply fit_limb; [|lia]. split; [lia|]. rewrite L0. pose proof (Z.pow_le_mono_r 256 ul (mp_len r)). lia. }
    intros r' SP. xb; apply wp_q_clear; [auto|lia|]. intros q' Hq'. xr. apply HF; auto; try apply SP.
    - rewrite EQ. apply qgood_0.
    - eapply shape_trans; [eauto|apply SP].
    - destruct q_out, q'; cbn; tauto.
    - destruct SP as (_ & _ & ->). rewrite limb_vlimb, E0, vlimb_0, Z.mod_small by lia. rewrite EU. ring.
    - rewrite EQ, qtr_0. destruct q_out, q'; cbn; try tauto. destruct Hq' as (_ & _ & ->). apply Z.mod_1_r. }
  apply Z.ltb_ge in EL.
  xb; apply wp_usub; [lia|]. destruct (q_max_facts ul (dv_len d)) as (M1 & M2); [lia|]. pf (q_max_facts2 ul (dv_len d)) as M3. cbv zeta in M3.
  fold (dvn d) in *. fold un in M2, M3. set (m := ct_mp_nlimbs (ul + 1 - dv_len d)) in *. set (n := dvn d) in *.
  pf (q_bound U D (dv_len d) ul) as QB. fold Qv in QB. pf (p256_B (ul + 1 - dv_len d)) as PB. fold m in PB.
  assert (QM : qtr q_out Qv / B ^ m = 0). { pose proof (qtr_le q_out Qv Q0). apply Z.div_small; lia. }
  apply (q_start e0 q_out Qv (ul + 1 - dv_len d)) in Hcase; [|lia|lia]. fold m in Hcase.
  assert (QM' : Qv / B ^ m = 0) by (apply Z.div_small; lia).
  xb; apply wp_q_clear; [auto|lia|]. intros q1 Hq1.
  assert (QI : qtinv q_out Qv m q1).
  { unfold qtinv. destruct q_out as [b|], q1 as [b1|]; auto. destruct Hq1 as (O1 & S1 & E1). split; auto. split; auto. rewrite QM, E1.
    apply Z.div_small. pf (Z.mod_pos_bound (mpval b) (256 ^ (ul + 1 - dv_len d))) as MB. lia. }
  (* scaling *)
  destruct (scale_pow _ Hs) as (SP1 & SP2 & _). set (s := dv_shift d) in *.
  xb; apply wp_scale_val; auto; [unfold isl; lia|lia|]. intros hi lo Ilo Hhi Elo. fold s in Hhi, Elo.
  xb; apply wp_scale_val; auto; [apply isl_0|]. intros c2 hi' Ihi Hc2 Ehi. fold s in Hc2, Ehi.
  assert (C2 : c2 = 0 /\ hi' = hi). { unfold isl in Ihi. clear - Ihi Hhi Hc2 Ehi SP1 SP2. destruct (Z.eq_dec c2 0); [lia|]. exfalso. pose proof (mul_le_l B 1 c2). pose proof B_gt. lia. }
  destruct C2 as [-> ->]. xb; apply wp_dassert; [reflexivity|].
  xb; apply wp_dassert. { apply orb_true_iff. rewrite !Z.eqb_eq. lia. }
  assert (EUs : 2 ^ s * U = (lo + hi * B) * B ^ (un - 1)) by (rewrite EU; replace (lo + hi * B) with (uh * 2 ^ s) by lia; ring).
  assert (E1 : 2 ^ s * U = rems U D s m). { unfold rems. rewrite Z.mod_small; [lia|]. split; [lia|].
    assert (U < D * (Qv + 1)) by (unfold Qv; pose proof (Z.mul_succ_div_gt U D); lia). pose proof (mul_le_l D (Qv + 1) (B ^ m)). lia. }
  pf (rems_bound U D s m) as RB0. rewrite <- E1, EUs in RB0. change (D * 2 ^ s) with (dvV d) in RB0.
  clear Elo Ehi Hhi Hc2 EU. clearbody U. clearbody uh. clear UHB UE UN KM KD.
  assert (HI0 : n + m = un -> hi = 0). { apply (sh_high lo hi (dvV d) n m un); auto; try (clear - M1 Hn M2; lia). apply RB0. }
  clear RB0.
  assert (LR : dv_len d <= mp_len r0) by (rewrite L0; lia).
  assert (EY : rems U D s m = (lo + hi * B) * B ^ (un - m) * B ^ (m - 1)).
  { rewrite <- E1, EUs, <- Z.mul_assoc, <- Z.pow_add_r by lia. f_equal. f_equal. lia. }
  set (Y := (lo + hi * B) * B ^ (un - m)) in EY. clear EUs. assert (UM : 0 <= un - m) by (clear - M2 Hn; lia).
  assert (WM : wm d = Z.max 0 (n - 2)) by reflexivity.
  xb. apply wp_mono with (Q := fun '(sh0, sh1) => pwin d Y r0 sh0 sh1).
  { unfold pwin. fold n. rewrite E0. xm; intros EM.
    - apply Z.eqb_eq in EM. pf (HI0 EM) as HZ. destruct (sh_limbs lo hi (un - m)) as (L1 & L2 & L3); [auto|auto|auto|]. fold Y in L1, L2, L3. xb; apply wp_dassert; [apply Z.eqb_eq; auto|]. xr.
      replace (un - m) with n in * by lia. split; auto. split; auto. split; [symmetry; apply L3; lia|]. split; [intros; apply L3; lia|]. symmetry. apply sh_div; lia.
    - apply Z.eqb_neq in EM. destruct (sh_limbs lo hi (un - m)) as (L1 & L2 & L3); [auto|auto|auto|]. fold Y in L1, L2, L3. xr.
      replace (un - m) with (n - 1) in * by lia. split; auto. split; [symmetry; replace n with (n - 1 + 1) by lia; auto|]. split; auto. split; [intros; apply L3; lia|]. symmetry. apply sh_div; lia. }
  intros [sh0 sh1] PW.
  assert (QM1 : Qv < B ^ m) by (clear - QB PB; lia). clearbody Y. clear E1 HI0 Ilo Ihi hi lo UB DY DB VB WM PB QB SP2 UM M2 M3 E0.
  assert (QN : match q_out with Some b => m <= nlimbs b + 1 | None => True end).
  { unfold short in NS. destruct q_out as [b|]; auto. pose proof (mp_len_nonneg b).
    pf (nlimbs_len_mono (ul + 1 - dv_len d) (mp_len b + LB)) as NM. fold m in NM.
    replace (mp_len b + LB) with (1 * LB + mp_len b) in NM by (clear; lia). rewrite nlimbs_add_aligned in NM by lia. fold (nlimbs b) in NM. lia. }
  apply wx_bindx. eapply wx_for_down with (I := fun j '(r1, sh0, sh1, q, failed) => same_shape r r1 /\
    if failed : bool then qover q_out Qv /\ mp_ok r1 /\ o_same q_out q
    else (1 <= j -> exists Y, rems U D s j = Y * B ^ (j - 1) /\ pwin d Y r1 sh0 sh1) /\ (j < m -> exists R, rems U D s j = R * B ^ j /\ prem d R r1 sh0 sh1) /\
      qtinv q_out Qv j q /\ (qst e0 q_out Qv j \/ qover q_out Qv /\ j = m)).
  { lia. } { split; auto. split; [intros _; exists Y; auto|]. split; [lia|]. split; auto. destruct Hcase; auto. }
  { intros j [[[[r1 t0] t1] q] failed] Hj [SS HI]. destruct failed; [xr; auto|]. destruct HI as (I1 & _ & I2 & I3). destruct I1 as (Y1 & RY & PY); [lia|].
    replace (j + 1 - 1) with j in RY by lia.
    apply wx_pow2_step with (Y := Y1) (q0 := q_out) (U := U) (Qv := Qv); auto; try lia.
    - rewrite (shape_len _ _ SS). clear - LR L0. lia.
    - unfold qnl. destruct q_out; auto. lia.
    - destruct I3 as [|[OV E]]; auto. right. split; auto. rewrite E. split; auto.
      unfold qover in OV. destruct q_out as [b|]; [|contradiction]. exists b. split; auto.
      assert (NB : nlimbs b < m); [|clear - NB E QN; lia]. destruct (Z.lt_ge_cases (nlimbs b) m); auto.
      pose proof (Z.pow_le_mono_r B m (nlimbs b)). pose proof B_pos. lia.
    - intros F r' t0' t1' q' R SR ER PR QR. split; [eapply shape_trans; eauto|]. split; [intros; exists (R * B); split; [|apply prem_pwin; auto]|].
      + fold D s in ER. rewrite ER. replace j with (j - 1 + 1) at 1 by lia. rewrite Bpow_S by lia. ring.
      + split; [intros; exists R; auto|]. auto.
    - intros OV r' t0' t1' q' OR SR QR. split; [eapply shape_trans; eauto|]. split; auto. split; auto. eapply qtinv_same; eauto. }
  intros [[[[r2 t0] t1] q2] failed] [SS HI]. destruct failed.
  { destruct HI as (OV & OR & SQ). xr. apply HO; auto. }
  destruct HI as (_ & I1 & I2 & I3). destruct I1 as (X & EX & (OR & E1' & E0' & EV)); [lia|]. fold n in E1', E0'. rewrite Z.pow_0_r, Z.mul_1_r in EX.
  pose proof (dv_pos _ Hd) as (_ & _ & _ & DB). fold D in DB. pose proof (dvo_bytes _ Hd) as DY. fold D in DY. pose proof (dvo_V _ Hd) as VB.
  pf (rems_bound U D s 0) as RB. rewrite Z.pow_0_r, Z.mul_1_r in RB. change (D * 2 ^ s) with (dvV d) in RB. rewrite EX in RB.
  assert (XE : X = 2 ^ s * (U mod D)) by (rewrite <- EX; unfold rems; rewrite Z.pow_0_r, Z.mul_1_r; auto). clear EX EY PW.
  xb; apply wp_dassert. { rewrite E0'. destruct (Z.leb_spec 2 n); [replace (1 <? n) with true by (symmetry; apply Z.ltb_lt; lia); auto|]. apply orb_true_r. }
  set (R := X / 2 ^ s). assert (RE : R = U mod D) by (unfold R; rewrite XE, Z.mul_comm, Z.div_mul by lia; auto).
  assert (FT : qgood q_out Qv). { destruct I3 as [I3|[_ I3]]; [apply (qst_0 e0); auto|]. clear - M1 I3; lia. }
  pf (Z.mod_pos_bound U D) as RM. rewrite <- RE in RM.
  assert (RF : 0 <= R < 256 ^ mp_len r2). { split; [lia|]. rewrite (shape_len _ _ SS). pose proof (Z.pow_le_mono_r 256 (dv_len d) (mp_len r)). lia. }
  apply (wx_pow2_unscale e0 _ d X r2 t0 t1); fold s R n.
  { auto. } { clear - RB VB. fold n in VB. lia. } { split; auto. } { rewrite (shape_len _ _ SS), <- L0. auto. }
  { clear - RM DB. fold n in DB. lia. } { apply RF. }
  intros r4 u4 O4 S4 E4. xr. apply HF; auto.
  - eapply shape_trans; eauto.
  - eapply qtinv_same; eauto.
  - congruence.
  - unfold qtinv in I2. destruct q_out, q2; cbn; try contradiction; auto. destruct I2 as (_ & _ & E). rewrite Z.pow_0_r, !Z.div_1_r in E. auto.
Qed.

Lemma wp_div_pow2 : forall k r d q_out (P : result unit div_err * mp * option mp -> Prop),
  0 <= k -> pow2_exp_ok k -> mp_ok r -> dv_ok d -> q_ok q_out ->
  let U := 2 ^ k in let D := dval d in let ul := k / 8 + 1 in
  let short := match q_out with Some b => mp_len b + dv_len d < ul | None => False end in
  let rshort := mp_len r < Z.min (dv_len d) ul in
  (short \/ rshort \/ qfit q_out (U / D) \/ qover q_out (U / D)) ->
  (short -> P (Err InsufficientQuotientSpace, r, q_out)) ->
  (~ short -> rshort -> P (Err InsufficientRemainderSpace, r, q_out)) ->
  (~ short -> ~ rshort -> qfit q_out (U / D) -> forall r' q', mp_ok r' -> same_shape r r' -> o_same q_out q' ->
     mpval r' = U mod D -> q_is q' (U / D) -> P (Ok tt, r', q')) ->
  (~ short -> ~ rshort -> qover q_out (U / D) -> forall r' q', mp_ok r' -> same_shape r r' -> o_same q_out q' ->
     P (Err InsufficientQuotientSpace, r', q')) ->
  wp (ct_div_pow2_mp k r d q_out) P.
Proof.
  intros k r d q_out P Hk Hkb Hr Hd Hq U D ul short rshort Hcase HS HR HF HO. apply wp_wx, wx_div_pow2; auto; fold U D; fold ul; fold short; fold rshort.
  - destruct Hcase as [|[|[H|H]]]; auto. right. right. left. apply qfit_good. auto.
  - intros NS NR G r' q' O1 S1 S2 E1 E2. destruct Hcase as [H|[H|[H|H]]]; [contradiction|contradiction| |exfalso; eapply qgood_over; eauto].
    apply HF; auto. rewrite qtr_fit in E2; auto. pose proof (dv_pos _ Hd) as (D0 & _). apply Z.div_pos; [apply Z.pow_nonneg; lia|auto].
Qed.
End Facts.
