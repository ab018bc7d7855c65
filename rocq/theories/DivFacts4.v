(** Correctness of ct_div_mp_mp. *)
From Coq Require Import ZArith List Bool Lia.
Require Import Verif.Spec Verif.Monad Verif.Base Verif.Wp Verif.Pan Verif.Wx Verif.ModelLimb Verif.LimbFacts Verif.LimbFacts2 Verif.LDivFacts
  Verif.ModelBuf Verif.SpecBuf Verif.BufFacts Verif.BufFacts2 Verif.BufFacts3 Verif.CompFacts Verif.UpFacts Verif.ShiftFacts Verif.MulFacts
  Verif.ModelDiv Verif.SpecDiv Verif.DivFacts Verif.DivFacts2 Verif.DivFacts3.
Import ListNotations.
Open Scope Z_scope.

Section Facts.
Context {c : cfg}.

Lemma unscale_d : forall d X i (Q : Z -> Prop), dv_ok d -> 0 <= i -> 0 <= X ->
  Q (vlimb (X / 2 ^ dv_shift d) i) -> wp (unscale_val d (vlimb X i) (vlimb X (i + 1))) Q.
Proof.
  intros d X i Q H Hi HX HQ. pose proof (dvo_s _ H). pose proof (dvo_rs _ H) as E1. pose proof (dvo_mask _ H) as E2.
  destruct d as [v dec ln s rs mask ld hd tl]. cbn [dv_shift dv_rshift dv_mask] in *. rewrite E1, E2. apply wp_unscale_limb; auto.
Qed.

Section Comp.
Context (k : kind) (cs0 : list cseg) (N : Z) (HC : cinv k 0 cs0) (HL : clen cs0 = N * LB) (HN : 0 <= N).

Definition cst (cs : list cseg) (T : Z) : Prop := Forall2 cs_same cs0 cs /\ cval cs = T.
Lemma cst_nl : forall cs T, cst cs T -> ct_mp_nlimbs (clen cs) = N.
Proof. intros cs T [F _]. rewrite (same_clen _ _ F), HL. pose proof LB_pos. apply ct_mp_nlimbs_unique; lia. Qed.
Lemma wp_cload : forall cs T i (Q : Z -> Prop), cst cs T -> 0 <= i < N -> Q (vlimb T i) -> wp (composite_load cs i) Q.
Proof.
  intros cs T i Q H Hi HQ. pose proof (cst_nl _ _ H). destruct H as [F E]. apply wp_composite_load with (k := k); [eapply cinv_same; eauto|lia|].
  rewrite E. auto.
Qed.
Lemma wp_cstore : forall cs T i x (Q : list cseg -> Prop), cst cs T -> 0 <= i < N -> isl x ->
  (forall cs', cst cs' (T + (x - vlimb T i) * B ^ i) -> Q cs') -> wp (composite_store cs i x) Q.
Proof.
  intros cs T i x Q H Hi Hx HQ. pose proof (cst_nl _ _ H). destruct H as [F E]. apply wp_composite_store with (k := k); [eapply cinv_same; eauto|lia| |].
  - unfold clim. rewrite (same_clen _ _ F), HL. pose proof (mul_LB_lt i N). rewrite Z.min_l by lia. rewrite <- B_256'. apply Hx.
  - intros cs' F' E'. apply HQ. split; [eapply same_trans; eauto|]. rewrite E', E. auto.
Qed.

Lemma wx_div_step : forall e d q0 U Qv j cs q (P : list cseg * option mp * bool -> Prop), dv_ok d -> 0 <= U -> Qv = U / dval d ->
  0 <= j -> dvn d + j < N -> cst cs (rems U (dval d) (dv_shift d) (j + 1)) -> qtinv q0 Qv (j + 1) q -> qnl q0 j ->
  (qst e q0 Qv (j + 1) \/ (qover q0 Qv /\ Qv / B ^ (j + 1) = 0 /\ exists b, q0 = Some b /\ j = nlimbs b)) ->
  (qst e q0 Qv j -> forall cs' q', cst cs' (rems U (dval d) (dv_shift d) j) -> qtinv q0 Qv j q' -> P (cs', q', false)) ->
  (qover q0 Qv -> forall cs' q' T, cst cs' T -> qtinv q0 Qv (j + 1) q' -> P (cs', q', true)) ->
  wx e (div_step d (dvn d) j (cs, q, false)) P.
Proof.
  intros e0 d q0 U Qv j cs q P Hd HU EQ Hj HjN HS HI Hnl Hcase HF HO. unfold div_step.
  pose proof (dv_pos _ Hd) as (D0 & V0 & _). pose proof (dvo_n _ Hd) as Hn. pose proof (dvo_s _ Hd) as Hs. pose proof (dvo_V _ Hd) as VB.
  set (D := dval d) in *. set (s := dv_shift d) in *. set (n := dvn d) in *. 
  assert (EV : dvV d = D * 2 ^ s) by reflexivity. set (V := dvV d) in *.
  pf (rems_bound U D s (j + 1)) as RB. rewrite <- EV in RB. set (T0 := rems U D s (j + 1)) in *.
  pf (Bpow_pos j) as BJ. pose proof B_gt as BG.
  assert (UB : 0 <= T0 / B ^ j < V * B).
  { split; [apply Z.div_pos; lia|]. apply Z.div_lt_upper_bound; [lia|]. rewrite Bpow_S in RB by auto. lia. }
  assert (LW : forall i, 0 <= i -> vlimb T0 (i + j) = vlimb (T0 / B ^ j) i). { intros. rewrite <- (limb_of_div T0 (i + j) j) by lia. f_equal. lia. }
  xb. eapply wp_cload; [eauto|lia|]. xb. eapply wp_cload; [eauto|lia|].
  xb. apply wp_mono with (Q := fun u2 => isl u2 /\ (2 <= n -> u2 = vlimb (T0 / B ^ j) (n - 2))).
  { xm; intros E.
    - apply Z.leb_le in E. eapply wp_cload; [eauto|lia|]. split; [apply vlimb_isl|]. intros. rewrite <- LW by lia. f_equal. lia.
    - apply Z.leb_gt in E. xr. split; [apply isl_0|lia]. }
  intros u2 (I2 & E2). xb. rewrite (LW n) by lia. replace (n + j - 1) with (n - 1 + j) by lia. rewrite (LW (n - 1)) by lia.
  apply wp_estimate with (U := T0 / B ^ j); auto. intros e He. pose proof He as (Ie & _).
  xb. eapply wp_for with (I := fun i '(cs, bd, cy, bo) => exists T, cst cs T /\ dvst d i bd cy /\ isl bo /\ subinv T0 e V j i bo T).
  { lia. } { exists T0. split; auto. split; [apply dvst_init; auto|]. split; [apply isl_0|apply subinv_init]. }
  { intros i [[[cs1 bd] cy] bo] Hi (T & S1 & S2 & S3 & S4). replace (j + i) with (i + j) by lia.
    xb. eapply wp_cload; [eauto|lia|]. xb; apply wp_sub_qv; auto; [apply vlimb_isl|].
    intros bd' cy' bo' x S2' S3' Hx Ex. xb. eapply wp_cstore; [eauto|lia|auto|]. intros cs2 S1'. xr.
    eexists. split; [eauto|]. split; auto. split; auto. eapply subinv_step; eauto; lia. }
  intros [[[cs1 bd] cy] bo] (T & S1 & S2 & S3 & S4). apply (dvst_end d bd cy Hd) in S2. subst cy.
  xb; apply wp_dassert; [reflexivity|]. replace (j + n) with (n + j) by lia.
  xb. eapply wp_cload; [eauto|lia|]. xb; apply wp_sub_l; [apply vlimb_isl|auto|]. intros x Hx Ex.
  set (b := vlimb T (n + j) <? bo) in *.
  xb. eapply wp_cstore; [eauto|lia|auto|]. intros cs2 S1'.
  destruct (sub_final T0 e V j n bo T x (b2z b)) as (F1 & F2 & F3 & F4); auto; try lia. { destruct b; auto. }
  set (T1 := T + _) in *. xb. eapply wp_lc_new with (b := b); [auto|].
  destruct (rem_step U D s j (e - b2z b) (T0 - (e - b2z b) * V * B ^ j)) as (G1 & G2); auto; try lia.
  apply wx_bindx. apply wx_store_q with (q0 := q0) (Qv := Qv); auto.
  { subst Qv. apply Z.div_pos; lia. } { rewrite EQ. auto. }
  2:{ intros. xr. eapply HO; eauto. }
  intros FT q' HI'. xb.
  eapply wp_for with (I := fun i '(cs, bd, cy) => exists T, cst cs T /\ decinv (mpval (dv_v d)) (dv_dec0 d) i bd /\ 0 <= cy <= 2 ^ s /\ (b = false -> cy = 0) /\ addinv T1 D s b j i cy T).
  { lia. } { exists T1. destruct (scale_pow s Hs) as (P1 & _). split; auto. split; [apply decinv_init, Hd|]. split; [lia|]. split; [auto|apply addinv_init]. }
  { intros i [[cs3 bd3] cy3] Hi (T3 & A1 & A2 & A3 & A4 & A5). replace (j + i) with (i + j) by lia.
    xb. eapply wp_cload; [eauto|lia|]. xb; apply wp_add_v; auto; [apply vlimb_isl|].
    intros bd' cy' y A2' A3' A4' Hy Ey. xb. eapply wp_cstore; [eauto|lia|auto|]. intros cs4 A1'. xr.
    eexists. split; [eauto|]. split; auto. split; auto. split; auto. eapply addinv_step; eauto; lia. }
  intros [[cs3 bd3] cy3] (T3 & A1 & A2 & A3 & A4 & A5). replace (j + n) with (n + j) by lia.
  xb. eapply wp_cload; [eauto|lia|]. destruct (scale_pow s Hs) as (P1 & P2 & _).
  xb; apply wp_add_l; [apply vlimb_isl|unfold isl; lia|]. intros k2 y Hk2 Hy Ey.
  xb. eapply wp_cstore; [eauto|lia|auto|]. intros cs4 A1'. xr. apply HF; auto.
  rewrite <- G1. rewrite <- (add_final T0 T1 e D s b j n cy3 T3 y k2); auto; lia.
Qed.
End Comp.

(** ** The whole function *)
Lemma q_max_facts : forall ul vl, 1 <= vl <= ul ->
  let m := ct_mp_nlimbs (ul + 1 - vl) in
  1 <= m /\ ct_mp_nlimbs vl + m <= ct_mp_nlimbs ul + 1.
Proof.
  intros ul vl H m. pf (ct_mp_nlimbs_spec (ul + 1 - vl)) as S1. fold m in S1. pf (ct_mp_nlimbs_spec ul) as S2. pf (ct_mp_nlimbs_spec vl) as S3.
  set (a := ct_mp_nlimbs ul) in *. set (b := ct_mp_nlimbs vl) in *. destruct LB_cases as [E|E]; rewrite E in *; lia.
Qed.
Lemma q_bound : forall U D vl ul, 0 <= U < 256 ^ ul -> 256 ^ (vl - 1) <= D -> 1 <= vl <= ul -> U / D < 256 ^ (ul + 1 - vl).
Proof.
  intros U D vl ul HU HD Hl. pf (p256_pos (vl - 1)). apply Z.div_lt_upper_bound; [lia|].
  assert (E : 256 ^ ul = 256 ^ (vl - 1) * 256 ^ (ul + 1 - vl)) by (rewrite <- Z.pow_add_r by lia; f_equal; lia).
  pf (p256_pos (ul + 1 - vl)). pose proof (mul_le_l (256 ^ (ul + 1 - vl)) (256 ^ (vl - 1)) D). lia.
Qed.

Lemma wp_q_clear : forall q0 n (P : option mp -> Prop), match q0 with Some b => mp_ok b | None => True end -> 0 <= n ->
  (forall q, match q0, q with None, None => True | Some b0, Some b => mp_ok b /\ same_shape b0 b /\ mpval b = mpval b0 mod 256 ^ n | _, _ => False end -> P q) ->
  wp (q_clear_above q0 n) P.
Proof.
  intros q0 n P H Hn HP. unfold q_clear_above. destruct q0 as [b|]; [|apply wp_ret, HP; auto].
  apply wp_bind, wp_clear_above; auto. intros b' S. apply wp_ret, HP. apply S.
Qed.

(** The scaling of the dividend. *)
Lemma sc_write : forall X s i, 0 <= i -> 
  let T i := (X * 2 ^ s) mod B ^ i + B ^ i * (X / B ^ i) in
  vlimb (T i) i = vlimb X i /\ T i + (vlimb (X * 2 ^ s) i - vlimb (T i) i) * B ^ i = T (i + 1).
Proof.
  intros X s i Hi T. pf (Bpow_pos i) as BP. pose proof (Z.mod_pos_bound (X * 2 ^ s) (B ^ i) BP) as MB.
  assert (E : vlimb (T i) i = vlimb X i). { unfold T. rewrite <- (limb_of_div _ i i), <- (limb_of_div X i i) by lia. rewrite lohi_div by auto. auto. }
  split; auto. rewrite E. unfold T. rewrite vmod_S by auto. rewrite (Bpow_S i) by auto. pf (vdiv_S X i) as VS. rewrite Bpow_S in VS by auto. rewrite VS. ring.
Qed.
(** The unscaling of the remainder. *)
Lemma unsc_write : forall X R i, 0 <= i ->
  let T i := X mod B ^ i + B ^ i * (R / B ^ i) in
  vlimb (T (i + 1)) i = vlimb X i /\ T (i + 1) + (vlimb R i - vlimb (T (i + 1)) i) * B ^ i = T i.
Proof.
  intros X R i Hi T. pf (Bpow_pos i) as BP. pf (Bpow_pos (i + 1)) as BP1. pose proof (Z.mod_pos_bound X (B ^ (i + 1)) BP1) as MB.
  assert (E : vlimb (T (i + 1)) i = vlimb X i). { unfold T. rewrite <- (limb_of_mod _ i (i + 1)), <- (limb_of_mod X i (i + 1)) by lia. rewrite lohi_mod by auto. auto. }
  split; auto. rewrite E. unfold T. rewrite vmod_S by auto. rewrite (Bpow_S i) by auto. pf (vdiv_S R i) as VS. rewrite Bpow_S in VS by auto. rewrite VS. ring.
Qed.

Lemma zeros_like : forall b n, mp_ok b -> 0 <= n -> (kind_of b = KNE -> n mod LB = 0) -> 16 * n < 2 ^ UW ->
  mp_ok (mp_zeros_like b n) /\ kind_of (mp_zeros_like b n) = kind_of b /\ mp_len (mp_zeros_like b n) = n /\ mpval (mp_zeros_like b n) = 0.
Proof.
  intros b n Hb Hn HK Hs. pose proof LB_pos. pose proof B_pos as BP. pose proof B_eq as BE0.
  assert (A : kind_of b = KNE -> ne_elements_for_len n = n / LB /\ n / LB * LB = n).
  { intros E. specialize (HK E). pf (Z.div_mod n LB) as DM. rewrite HK, Z.add_0_r in DM. split; [|lia].
    unfold ne_elements_for_len, ct_mp_limbs_align_len. rewrite (ct_mp_nlimbs_unique n (n / LB)); [|apply Z.div_pos; lia|lia].
    rewrite Z.div_mul, Z.mod_mul by lia. cbn. lia. }
  destruct b as [l|l|l]; unfold mp_zeros_like, mp_ok; cbn [kind_of mp_len mpval] in *.
  - rewrite zlen_zrepeat by lia. split; [split; [apply zrepeat_ok; lia|auto]|]. split; auto. split; auto. unfold be_val. rewrite rev_zrepeat. apply zrepeat_val.
  - rewrite zlen_zrepeat by lia. split; [split; [apply zrepeat_ok; lia|auto]|]. split; auto. split; auto. apply zrepeat_val.
  - destruct (A eq_refl) as [-> A2]. rewrite zlen_zrepeat by (apply Z.div_pos; lia). rewrite A2. split; [split; [apply zrepeat_ok|auto]|].
    { apply Z.pow_pos_nonneg; lia. }
    split; auto. split; auto. apply zrepeat_val.
Qed.

Lemma uval_bound : forall u_h u_l, u_ok u_h u_l -> 0 <= uval u_h u_l < 256 ^ (mp_len u_l + uhlen u_h).
Proof.
  intros u_h u_l [H1 H2]. pose proof (mpval_bound _ H1) as B1. pose proof (mp_len_nonneg u_l). unfold uval, uhval, uhlen.
  destruct u_h as [b|]; [|rewrite Z.add_0_r; lia]. destruct H2 as [H2 _]. pose proof (mpval_bound _ H2) as B2. pose proof (mp_len_nonneg b).
  rewrite Z.pow_add_r by lia. pf (p256_pos (mp_len u_l)). pose proof (mul_le_l (256 ^ mp_len u_l) (mpval b) (256 ^ mp_len b - 1)).
  pose proof (mul_nn (256 ^ mp_len u_l) (mpval b)). lia.
Qed.
Lemma qtinv_same : forall q0 Qv j q, qtinv q0 Qv j q -> o_same q0 q.
Proof. intros [b0|] Qv j [b|]; cbn; tauto. Qed.
Lemma qinv_same : forall q0 Qv j q, qinv q0 Qv j q -> o_same q0 q.
Proof. intros [b0|] Qv j [b|]; cbn; tauto. Qed.
Lemma nlimbs_len_mono : forall a b, 0 <= a <= b -> ct_mp_nlimbs a <= ct_mp_nlimbs b.
Proof. intros. unfold ct_mp_nlimbs. pose proof LB_pos. apply Z.div_le_mono; lia. Qed.
Lemma p256_B : forall n, 0 <= n -> 256 ^ n <= B ^ ct_mp_nlimbs n.
Proof. intros. pf (ct_mp_nlimbs_spec n). rewrite Bpow256 by lia. apply Z.pow_le_mono_r; lia. Qed.

Lemma wp_div_parts : forall k u_h u_l uh' pad cs0 cs T (P : option mp * mp -> Prop),
  uh' = match u_h with Some b => b | None => mp_zeros_like u_l 0 end -> (u_h = None -> mp_len uh' = 0) -> 
  segs_ok k [u_l; uh'; pad] -> composite_segments cs0 = [u_l; uh'; pad] -> cinv k 0 cs0 -> cst cs0 cs T ->
  (forall u_h' u_l', mp_ok u_l' -> same_shape u_l u_l' -> o_same u_h u_h' ->
    (T < 256 ^ (mp_len u_l + uhlen u_h) -> uval u_h' u_l' = T) -> P (u_h', u_l')) ->
  wp (div_parts u_h cs) P.
Proof.
  intros k u_h u_l uh' pad cs0 cs T P Euh HZ HS HG HC [HF HT] HP.
  destruct (composite_out k cs0 cs _ HS HG HC HF) as (F2 & VS). { intros ->. cbn in HG. discriminate. }
  unfold div_parts. inversion F2 as [|? l1 ? t1 [A1 O1] R1 X1 Y1]; subst. inversion R1 as [|? l2 ? t2 [A2 O2] R2]; subst.
  inversion R2 as [|? l3 ? t3 [A3 O3] R3]; subst. inversion R3; subst. rewrite <- Y1 in VS. cbn [segs_val] in VS. rewrite Z.mul_0_r, Z.add_0_r in VS.
  apply wp_ret. apply HP; auto.
  - destruct u_h; cbn; auto.
  - intros HB. unfold uval. set (hb := match u_h with Some b => b | None => mp_zeros_like u_l 0 end) in *.
    pose proof (shape_len _ _ A1) as L1. pose proof (shape_len _ _ A2) as L2. rewrite L1, L2 in VS. rewrite L1.
    pose proof (mpval_bound _ O1) as B1. pose proof (mpval_bound _ O2) as B2. pose proof (mpval_bound _ O3) as B3. rewrite L1 in B1. rewrite L2 in B2.
    pose proof (mp_len_nonneg u_l). pose proof (mp_len_nonneg hb). pf (p256_pos (mp_len u_l)). pf (p256_pos (mp_len hb)).
    assert (EH : mp_len hb = uhlen u_h). { unfold hb. destruct u_h; cbn; auto. }
    rewrite <- EH in HB. rewrite Z.pow_add_r in HB by lia.
    assert (H3 : mpval l3 = 0).
    { destruct (Z.eq_dec (mpval l3) 0); auto. pose proof (mul_le_l (256 ^ mp_len hb) 1 (mpval l3)).
      pose proof (mul_le_l (256 ^ mp_len u_l) (256 ^ mp_len hb) (mpval l2 + 256 ^ mp_len hb * mpval l3)). lia. }
    rewrite H3, Z.mul_0_r, Z.add_0_r in VS. rewrite <- VS. destruct u_h as [b|]; cbn [uhval]; auto.
    cbn in EH. rewrite EH in B2. change (256 ^ 0) with 1 in B2. replace (mpval l2) with 0 by lia. lia.
Qed.

Lemma q_start : forall e q0 Qv L, 0 <= L -> 0 <= Qv < 256 ^ L -> (qgood q0 Qv \/ qover q0 Qv \/ e = true) ->
  qst e q0 Qv (ct_mp_nlimbs L) \/ qover q0 Qv.
Proof.
  intros e q0 Qv L HL HQ [H|[H|H]]; [left; left; auto|auto|]. destruct q0 as [b|]; [|left; left; exact I].
  destruct (Z.lt_ge_cases Qv (B ^ nlimbs b)) as [C|C]; [left|right; cbn; lia].
  destruct (Z.le_gt_cases (nlimbs b) (ct_mp_nlimbs L)) as [C2|C2]; [right; auto|]. left. left.
  pf (ct_mp_nlimbs_spec L) as S1. pose proof (nlimbs_spec b) as S2. pose proof LB_pos as LP.
  eapply Z.lt_le_trans; [apply HQ|]. apply Z.pow_le_mono_r; [lia|].
  assert (ct_mp_nlimbs L * LB <= (nlimbs b - 1) * LB) by (apply Z.mul_le_mono_nonneg_r; lia). lia.
Qed.
Lemma qgood_0 : forall q0, qgood q0 0.
Proof. intros [b|]; cbn; [|exact I]. left. apply p256_pos, mp_len_nonneg. Qed.
Lemma qtr_0 : forall q0, qtr q0 0 = 0.
Proof. intros [b|]; [apply Zmod_0_l|reflexivity]. Qed.
Lemma qfit_good : forall q0 Qv, qfit q0 Qv -> qgood q0 Qv.
Proof. intros [b|] Qv H; cbn in *; auto. Qed.
Lemma qgood_over : forall q0 Qv, qgood q0 Qv -> qover q0 Qv -> False.
Proof. intros [b|] Qv H1 H2; [|exact H2]. apply qgood_B in H1. cbn in H2. lia. Qed.

Lemma wx_div_mp_mp : forall e u_h u_l d q_out (P : result unit div_err * option mp * mp * option mp -> Prop),
  u_ok u_h u_l -> dv_ok d -> q_ok q_out ->
  let U := uval u_h u_l in let D := dval d in
  let short := match q_out with Some b => mp_len b + dv_len d < mp_len u_l + uhlen u_h | None => False end in
  (short \/ qgood q_out (U / D) \/ qover q_out (U / D) \/ e = true) ->
  (short -> P (Err InsufficientQuotientSpace, u_h, u_l, q_out)) ->
  (~ short -> qgood q_out (U / D) -> forall u_h' u_l' q', mp_ok u_l' -> same_shape u_l u_l' -> o_same u_h u_h' -> o_same q_out q' ->
     uval u_h' u_l' = U mod D -> q_is q' (qtr q_out (U / D)) -> P (Ok tt, u_h', u_l', q')) ->
  (~ short -> qover q_out (U / D) -> forall u_h' u_l' q', mp_ok u_l' -> same_shape u_l u_l' -> o_same u_h u_h' -> o_same q_out q' ->
     P (Err InsufficientQuotientSpace, u_h', u_l', q')) ->
  wx e (ct_div_mp_mp u_h u_l d q_out) P.
Proof.
  intros e u_h u_l d q_out P Hu Hd Hq U D short Hcase HS HF HO. unfold ct_div_mp_mp.
  pose proof (uval_bound _ _ Hu) as UB. fold U in UB. pose proof (dv_pos _ Hd) as (D0 & V0 & _ & DB). fold D in D0, DB.
  pose proof (dvo_bytes _ Hd) as DY. fold D in DY. pose proof (dvo_len _ Hd) as DL. pose proof (dvo_s _ Hd) as Hs. pose proof (dvo_n _ Hd) as Hn. pose proof (dvo_V _ Hd) as VB.
  set (uh' := match u_h with Some b => b | None => mp_zeros_like u_l 0 end). pose proof LB_pos as LP.
  destruct Hu as [Hul Huh]. pose proof (mp_len_nonneg u_l).
  assert (UH : mp_ok uh' /\ kind_of uh' = kind_of u_l /\ mp_len uh' = uhlen u_h /\ mpval uh' = uhval u_h).
  { unfold uh', uhlen, uhval. destruct u_h as [b|]; [destruct Huh; auto|]. apply zeros_like; auto; try lia. pose proof UW_gt; lia. }
  destruct UH as (UH1 & UH2 & UH3 & UH4). rewrite UH3. set (ul := mp_len u_l + uhlen u_h) in *. pose proof (mp_len_nonneg uh') as UH5. rewrite UH3 in UH5.
  xb. apply wp_mono with (Q := fun b => b = true /\ short \/ b = false /\ ~ short).
  { unfold q_too_short, short. destruct q_out as [b|]; [|xr; tauto]. xm; intros E; xr.
    - left. apply Z.ltb_lt in E. auto.
    - right. apply Z.ltb_ge in E. split; auto. lia. }
  intros sh [[-> SH]|[-> NS]]. { xr. auto. }
  specialize (HF NS). specialize (HO NS). destruct Hcase as [|Hcase]; [tauto|]. set (Qv := U / D) in *.
  assert (Q0 : 0 <= Qv) by (apply Z.div_pos; lia).
  xm; intros EL.
  { apply Z.ltb_lt in EL. assert (UD : U < D). { pose proof (Z.pow_le_mono_r 256 ul (dv_len d - 1)). lia. }
    assert (EQ : Qv = 0) by (apply Z.div_small; lia).
    xb; apply wp_q_clear; [auto|lia|]. intros q' Hq'. xr. apply HF; auto.
    - rewrite EQ. apply qgood_0.
    - apply shape_refl.
    - destruct u_h; cbn; auto. split; [apply Huh|apply shape_refl].
    - destruct q_out, q'; cbn; tauto.
    - fold U. symmetry. apply Z.mod_small. lia.
    - rewrite EQ, qtr_0. destruct q_out, q'; cbn; try tauto. destruct Hq' as (_ & _ & ->). apply Z.mod_1_r. }
  apply Z.ltb_ge in EL.
  xb; apply wp_usub; [lia|]. destruct (q_max_facts ul (dv_len d)) as (M1 & M2); [lia|]. set (m := ct_mp_nlimbs (ul + 1 - dv_len d)) in *.
  pf (q_bound U D (dv_len d) ul) as QB. fold Qv in QB. pf (p256_B (ul + 1 - dv_len d)) as PB. fold m in PB.
  assert (QM : qtr q_out Qv / B ^ m = 0). { pose proof (qtr_le q_out Qv Q0). apply Z.div_small; lia. }
  apply (q_start e q_out Qv (ul + 1 - dv_len d)) in Hcase; [|lia|lia]. fold m in Hcase.
  assert (QM' : Qv / B ^ m = 0) by (apply Z.div_small; lia).
  xb; apply wp_q_clear; [auto|lia|]. intros q1 Hq1.
  assert (QI : qtinv q_out Qv m q1).
  { unfold qtinv. destruct q_out as [b|], q1 as [b1|]; auto. destruct Hq1 as (O1 & S1 & E1). split; auto. split; auto. rewrite QM, E1.
    apply Z.div_small. pf (Z.mod_pos_bound (mpval b) (256 ^ (ul + 1 - dv_len d))) as MB. lia. }
  xb. set (un := ct_mp_nlimbs ul) in *. pf (ct_mp_nlimbs_spec ul) as US. fold un in US.
  apply wp_mono with (Q := fun p => 0 <= p < LB /\ (ul + p) = un * LB /\ (ul mod LB = 0 -> p = 0)).
  { pf (Z.div_mod ul LB) as DM. pf (Z.mod_pos_bound ul LB) as MB. xm; intros E.
    - apply Z.eqb_eq in E. xr. split; [lia|]. split; auto. unfold un. rewrite (ct_mp_nlimbs_unique ul (ul / LB)); [lia|apply Z.div_pos; lia|lia].
    - apply Z.eqb_neq in E. apply wp_usub; [lia|]. split; [lia|]. split; [|lia]. unfold un. rewrite (ct_mp_nlimbs_unique ul (ul / LB + 1)); [lia| |lia].
      pf (Z.div_pos ul LB). lia. }
  intros pad (PD1 & PD2 & PD3). set (k := kind_of u_l).
  assert (PADK : kind_of u_l = KNE -> (LB + pad) mod LB = 0).
  { intros E. assert (EA : forall b, kind_of b = KNE -> mp_len b mod LB = 0). { intros b Eb. destruct b; try discriminate. cbn [mp_len]. apply Z.mod_mul. lia. }
    rewrite PD3; [rewrite Z.add_0_r; apply Z.mod_same; lia|]. unfold ul. rewrite <- UH3. rewrite Z.add_mod, !EA by (lia || congruence). apply Z.mod_0_l. lia. }
  destruct (zeros_like u_l (LB + pad)) as (PO & PK & PL & PV); auto; [lia|destruct LB_cases; pose proof UW_gt; lia|].
  set (upad := mp_zeros_like u_l (LB + pad)) in *.
  assert (SO : segs_ok k [u_l; uh'; upad]) by (unfold segs_ok; rewrite !Forall_cons_iff; auto).
  xb; apply wp_composite_new with (k := k); auto. intros cs0 HC CL CV CG. cbn [segs_len segs_val] in CL, CV.
  rewrite PL, UH3 in CL. rewrite PV, UH4, Z.mul_0_r, !Z.add_0_r in CV.
  assert (HL : clen cs0 = (un + 1) * LB) by lia. clear CL.
  assert (CV' : cst cs0 cs0 U). { split; [eapply cinv_refl; eauto|]. rewrite CV. unfold U, uval. lia. } clear CV.
  assert (HN0 : 0 <= un) by apply US. assert (HN1 : 0 <= un + 1) by (clear - HN0; lia).
  clear PD1 PD2 PD3 PADK PO PK PL PV UH1 UH2 UH4 Hq1 US Hq HS.
  (* scaling *)
  assert (UB' : U < B ^ un). { pf (p256_B ul) as X. fold un in X. lia. }
  destruct (scale_pow _ Hs) as (SP1 & SP2 & _). set (s := dv_shift d) in *.
  assert (US' : U * 2 ^ s < B ^ (un + 1)).
  { rewrite Bpow_S by lia. pose proof (mul_le_l U (2 ^ s) B). pose proof (mul_lt_l B U (B ^ un)). lia. }
  xb. eapply wp_for with (I := fun i '(cs, cy) => cst cs0 cs ((U * 2 ^ s) mod B ^ i + B ^ i * (U / B ^ i)) /\ scinv U s i cy).
  { lia. } { split; [|apply scinv_init; lia]. rewrite Z.pow_0_r, Z.mod_1_r, Z.div_1_r. replace (0 + 1 * U) with U by lia. auto. }
  { intros i [cs cy] Hi [S1 S2]. destruct (sc_write U s i) as [W1 W2]; [lia|].
    xb. eapply wp_cload; eauto. rewrite W1.
    xb; apply wp_scale_val; auto; [apply vlimb_isl|apply S2|]. intros c' x Hx Hc Ex. fold s in Hc, Ex.
    destruct (scinv_step U s i cy x c') as [-> S2']; auto; [lia|].
    xb. eapply wp_cstore; eauto. intros cs' S1'. xr. rewrite W2 in S1'. auto. }
  intros [cs1 cy] [S1 S2]. apply (scinv_end U s) in S2; try lia. subst cy. xb; apply wp_dassert; [reflexivity|].
  assert (UN0 : 0 <= U * 2 ^ s) by (apply mul_nn; lia).
  rewrite Z.mod_small in S1 by lia. rewrite Z.div_small in S1 by (rewrite Bpow_S by lia; pose proof B_gt; pose proof (mul_le_l (B ^ un) 1 B); lia).
  rewrite Z.mul_0_r, Z.add_0_r in S1.
  assert (E1 : U * 2 ^ s = rems U D s m). { unfold rems. rewrite Z.mod_small; [lia|]. split; [lia|].
    assert (U < D * (Qv + 1)) by (unfold Qv; pose proof (Z.mul_succ_div_gt U D); lia). pose proof (mul_le_l D (Qv + 1) (B ^ m)). lia. }
  rewrite E1 in S1.
  (* the loop *)
  assert (QN : match q_out with Some b => m <= nlimbs b + 1 | None => True end).
  { unfold short in NS. destruct q_out as [b|]; auto. pose proof (mp_len_nonneg b).
    pf (nlimbs_len_mono (ul + 1 - dv_len d) (mp_len b + LB)) as NM. fold m in NM.
    replace (mp_len b + LB) with (1 * LB + mp_len b) in NM by lia. rewrite nlimbs_add_aligned in NM by lia. fold (nlimbs b) in NM. lia. }
  apply wx_bindx. eapply wx_for_down with (I := fun j '(cs, q, failed) =>
    if failed : bool then qover q_out Qv /\ (exists T, cst cs0 cs T) /\ o_same q_out q
    else cst cs0 cs (rems U D s j) /\ qtinv q_out Qv j q /\ (qst e q_out Qv j \/ qover q_out Qv /\ j = m)).
  { lia. } { destruct Hcase; auto. }
  { intros j [[cs q] failed] Hj HI. destruct failed; [xr; auto|]. destruct HI as (I1 & I2 & I3).
    apply wx_div_step with (k := k) (cs0 := cs0) (N := un + 1) (q0 := q_out) (U := U) (Qv := Qv); auto; try lia.
    - fold (dvn d) in M2. lia.
    - unfold qnl. destruct q_out; auto. lia.
    - destruct I3 as [|[OV E]]; auto. right. split; auto. rewrite E. split; auto.
      unfold qover in OV. destruct q_out as [b|]; [|contradiction]. exists b. split; auto.
      assert (nlimbs b < m); [|clear - H0 E QN; lia]. destruct (Z.lt_ge_cases (nlimbs b) m); auto.
      pose proof (Z.pow_le_mono_r B m (nlimbs b)). pose proof B_pos. lia.
    - intros OV cs' q' T HT HQ'. split; auto. split; eauto using qtinv_same. }
  intros [[cs2 q2] failed] HI. destruct failed.
  { destruct HI as (OV & (T & HT) & SQ). xb. eapply wp_div_parts with (k := k); eauto.
    { intros ->. exact UH3. }
    intros u_h' u_l' O1 O2 O3 _. xr. apply HO; auto. }
  destruct HI as (I1 & I2 & I3). pf (rems_bound U D s 0) as RB. rewrite Z.pow_0_r, Z.mul_1_r in RB. change (D * 2 ^ s) with (dvV d) in RB.
  set (X := rems U D s 0) in *. assert (XE : X = 2 ^ s * (U mod D)) by (unfold X, rems; rewrite Z.pow_0_r, Z.mul_1_r; auto).
  fold (dvn d). fold (dvn d) in M2. set (n := dvn d) in *.
  xb. apply wp_for with (I := fun _ _ => True); auto; [lia| |].
  { intros i [] Hi _. apply wp_dassert_m; auto. xb. eapply wp_cload; eauto; [lia|]. xr. apply Z.eqb_eq. apply vlimb_out with (n := n); lia. }
  intros _ _. set (R := X / 2 ^ s).
  assert (RE : R = U mod D) by (unfold R; rewrite XE, Z.mul_comm, Z.div_mul by lia; auto).
  xb. eapply wp_for_down with (I := fun i '(cs, uh) => cst cs0 cs (X mod B ^ i + B ^ i * (R / B ^ i)) /\ uh = vlimb X i).
  { lia. } { rewrite Z.mod_small by lia. pf (Z.mod_pos_bound U D). rewrite (Z.div_small R) by lia. rewrite Z.mul_0_r, Z.add_0_r. split; auto. symmetry. apply vlimb_out with (n := n); lia. }
  { intros i [cs uh] Hi [J1 ->]. assert (IN : 0 <= i < un + 1) by (clear - Hi M1 M2; lia). assert (X0 : 0 <= X) by apply RB.
    destruct (unsc_write X R i) as [W1 W2]; [apply Hi|].
    xb. eapply wp_cload; eauto. rewrite W1.
    xb; apply unscale_d; auto; [apply Hi|]. fold s R.
    xb. eapply wp_cstore; eauto; [apply vlimb_isl|]. intros cs' J1'. xr. rewrite W2 in J1'. auto. }
  intros [cs3 uh] [J1 _]. rewrite Z.pow_0_r, Z.mod_1_r, Z.div_1_r in J1. replace (0 + 1 * R) with R in J1 by lia.
  assert (FT : qgood q_out Qv). { destruct I3 as [I3|[_ I3]]; [apply (qst_0 e); auto|]. clear - M1 I3; lia. }
  xb. eapply wp_div_parts with (k := k); eauto.
  { intros ->. exact UH3. }
  intros u_h' u_l' O1 O2 O3 O4. xr. apply HF; auto; try (eapply qtinv_same; eauto).
  - rewrite <- RE. apply O4. fold ul. rewrite RE. pf (Z.mod_le U D). lia.
  - unfold qtinv in I2. destruct q_out, q2; cbn; try contradiction; auto. destruct I2 as (_ & _ & E). rewrite Z.pow_0_r, !Z.div_1_r in E. auto.
Qed.

Lemma wp_div_mp_mp : forall u_h u_l d q_out (P : result unit div_err * option mp * mp * option mp -> Prop),
  u_ok u_h u_l -> dv_ok d -> q_ok q_out ->
  let U := uval u_h u_l in let D := dval d in
  let short := match q_out with Some b => mp_len b + dv_len d < mp_len u_l + uhlen u_h | None => False end in
  (short \/ qfit q_out (U / D) \/ qover q_out (U / D)) ->
  (short -> P (Err InsufficientQuotientSpace, u_h, u_l, q_out)) ->
  (~ short -> qfit q_out (U / D) -> forall u_h' u_l' q', mp_ok u_l' -> same_shape u_l u_l' -> o_same u_h u_h' -> o_same q_out q' ->
     uval u_h' u_l' = U mod D -> q_is q' (U / D) -> P (Ok tt, u_h', u_l', q')) ->
  (~ short -> qover q_out (U / D) -> forall u_h' u_l' q', mp_ok u_l' -> same_shape u_l u_l' -> o_same u_h u_h' -> o_same q_out q' ->
     P (Err InsufficientQuotientSpace, u_h', u_l', q')) ->
  wp (ct_div_mp_mp u_h u_l d q_out) P.
Proof.
  intros u_h u_l d q_out P Hu Hd Hq U D short Hcase HS HF HO. apply wp_wx, wx_div_mp_mp; auto; fold U D; fold short.
  - destruct Hcase as [|[H|H]]; auto. right. left. apply qfit_good. auto.
  - intros NS G u_h' u_l' q' O1 S1 S2 S3 E1 E2. destruct Hcase as [H|[H|H]]; [contradiction| |exfalso; eapply qgood_over; eauto].
    apply HF; auto. rewrite qtr_fit in E2; auto. pose proof (uval_bound _ _ Hu). pose proof (dv_pos _ Hd) as (D0 & _).
    apply Z.div_pos; unfold U, D; lia.
Qed.

End Facts.
