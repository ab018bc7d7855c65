(** Correctness of ct_div_lshifted_mp_mp: the first division loop. *)
From Coq Require Import ZArith List Bool Lia.
Require Import Verif.Spec Verif.Monad Verif.Base Verif.Wp Verif.Pan Verif.Wx Verif.ModelLimb Verif.LimbFacts Verif.LimbFacts2 Verif.LDivFacts
  Verif.ModelBuf Verif.SpecBuf Verif.BufFacts Verif.BufFacts2 Verif.BufFacts3 Verif.CompFacts Verif.UpFacts Verif.ShiftFacts Verif.MulFacts
  Verif.ModelDiv Verif.SpecDiv Verif.DivFacts Verif.DivFacts2 Verif.DivFacts3 Verif.DivFacts4 Verif.DivFacts6 Verif.DivFacts7 Verif.DivFacts8.
Import ListNotations.
Open Scope Z_scope.

Section Facts.
Context {c : cfg}.

(** The state of the first loop: the buffer's [l] lower limbs, followed by the shadow's three limbs. *)
Definition lst (l : Z) (u0 u : mp) (sh : list Z) (T : Z) : Prop :=
  mp_ok u /\ same_shape u0 u /\ exists a0 a1 a2, sh = [a0; a1; a2] /\ isl a0 /\ isl a1 /\ isl a2 /\
  T = mpval u mod B ^ l + B ^ l * (a0 + B * (a1 + B * a2)).

Lemma three_limbs : forall a0 a1 a2, isl a0 -> isl a1 -> isl a2 -> let v := a0 + B * (a1 + B * a2) in
  vlimb v 0 = a0 /\ vlimb v 1 = a1 /\ vlimb v 2 = a2.
Proof.
  intros a0 a1 a2 H0 H1 H2 v. pose proof B_pos as BP. unfold isl in *. unfold vlimb.
  assert (E : forall x y, 0 <= x < B -> (x + B * y) / B = y /\ (x + B * y) mod B = x).
  { intros x y Hx. split; [symmetry; apply Z.div_unique with (r := x); auto; lia|symmetry; apply Z.mod_unique with (q := y); auto; lia]. }
  destruct (E a0 (a1 + B * a2) H0) as [E1 E2]. destruct (E a1 a2 H1) as [E3 E4]. fold v in E1, E2.
  rewrite Z.pow_0_r, Z.div_1_r, Z.pow_1_r. split; auto. rewrite E1. split; auto.
  change 2 with (1 + 1). rewrite Z.pow_add_r, Z.pow_1_r by lia. rewrite <- Z.div_div by lia. rewrite E1, E3. apply Z.mod_small. auto.
Qed.

Lemma upd_mod_hi : forall v x i l, 0 <= i < l -> isl x -> (v + (x - vlimb v i) * B ^ i) mod B ^ l = v mod B ^ l + (x - vlimb v i) * B ^ i.
Proof.
  intros v x i l Hi Hx. pf (Bpow_pos l) as BP. pf (Bpow_pos (i + 1)) as BI. 
  assert (ED : (v + (x - vlimb v i) * B ^ i) / B ^ l = v / B ^ l).
  { replace l with (i + 1 + (l - i - 1)) by lia. rewrite Z.pow_add_r by lia. pf (Bpow_pos (l - i - 1)). rewrite <- !Z.div_div by lia. rewrite upd_div by (auto; lia). auto. }
  rewrite !Z.mod_eq, ED by lia. lia.
Qed.

Section St.
Context (u0 : mp) (l : Z) (Hl : 0 <= l) (HU0 : nlimbs u0 = l + 1).

Lemma lst_len : forall u, same_shape u0 u -> nlimbs u = l + 1.
Proof. intros u S. rewrite <- HU0. unfold nlimbs. rewrite (shape_len _ _ S). auto. Qed.

Lemma lst_low : forall u sh T p, lst l u0 u sh T -> 0 <= p < l -> limb u p = vlimb T p /\ (p + 1) * LB <= mp_len u.
Proof.
  intros u sh T p (O & S & a0 & a1 & a2 & -> & I0 & I1 & I2 & ->) Hp.  pf (Bpow_pos l) as BP. pf (Z.mod_pos_bound (mpval u) (B ^ l)) as MB.
  split.
  - rewrite limb_vlimb. rewrite <- (limb_of_mod _ p l), <- (limb_of_mod (_ + _) p l) by lia. rewrite lohi_mod; auto.
  - pose proof LB_pos. pf (lst_len u) as L. pf (nlimbs_spec u) as NS. pf (mul_le_l LB (p + 1) l) as X. destruct (Z.eq_dec (mp_len u) 0); [unfold nlimbs in *; rewrite e in *; unfold ct_mp_nlimbs in L; rewrite Z.div_small in L; lia|]. lia.
Qed.
Lemma lst_high : forall u sh T k, lst l u0 u sh T -> 0 <= k < 3 -> nth (Z.to_nat k) sh 0 = vlimb T (l + k) /\ zlen sh = 3.
Proof.
  intros u sh T k (O & S & a0 & a1 & a2 & -> & I0 & I1 & I2 & ->) Hk.  pf (Bpow_pos l) as BP. pf (Z.mod_pos_bound (mpval u) (B ^ l)) as MB.
  split; [|reflexivity]. rewrite <- (limb_of_div _ (l + k) l) by lia. rewrite lohi_div by auto. replace (l + k - l) with k by lia.
  destruct (three_limbs a0 a1 a2 I0 I1 I2) as (E0 & E1 & E2).
  assert (K : k = 0 \/ k = 1 \/ k = 2) by lia. destruct K as [->|[->| ->]]; cbn; auto.
Qed.

Lemma wp_lload : forall u sh T p (Q : Z -> Prop), lst l u0 u sh T -> 0 <= p < l -> Q (vlimb T p) -> wp (load_l_full u p) Q.
Proof. intros u sh T p Q H Hp HQ. destruct (lst_low _ _ _ _ H Hp) as [E L]. apply wp_load_full; [apply H|lia|auto|]. rewrite E. auto. Qed.
Lemma wp_lstore : forall u sh T p x (Q : mp -> Prop), lst l u0 u sh T -> 0 <= p < l -> isl x ->
  (forall u', lst l u0 u' sh (T + (x - vlimb T p) * B ^ p) -> Q u') -> wp (store_l_full u p x) Q.
Proof.
  intros u sh T p x Q H Hp Hx HQ. destruct (lst_low _ _ _ _ H Hp) as [E L]. apply wp_store_full; [apply H|lia|auto|auto|].
  intros u' (O' & S' & E'). apply HQ. destruct H as (O & S & a0 & a1 & a2 & -> & I0 & I1 & I2 & ET).
  split; auto. split; [eapply shape_trans; eauto|]. exists a0, a1, a2. do 4 (split; auto).  rewrite E'. rewrite limb_vlimb in *.
  rewrite upd_mod_hi by auto. rewrite <- E. rewrite ET at 1. lia.
Qed.
Lemma wp_hload : forall u sh T p (Q : Z -> Prop), lst l u0 u sh T -> l <= p < l + 3 -> Q (vlimb T p) -> wp (znth sh (p - l)) Q.
Proof.
  intros u sh T p Q H Hp HQ. destruct (lst_high u sh T (p - l) H) as [E L]; [lia|]. apply wp_znth; [lia|]. rewrite E. replace (l + (p - l)) with p by lia. auto.
Qed.
Lemma wp_hstore : forall u sh T p x (Q : list Z -> Prop), lst l u0 u sh T -> l <= p < l + 3 -> isl x ->
  (forall sh', lst l u0 u sh' (T + (x - vlimb T p) * B ^ p) -> Q sh') -> wp (zupd sh (p - l) x) Q.
Proof.
  intros u sh T p x Q H Hp Hx HQ. destruct (lst_high u sh T (p - l) H) as [E L]; [lia|]. apply wp_zupd; [lia|]. apply HQ.
  destruct H as (O & S & a0 & a1 & a2 & -> & I0 & I1 & I2 & ET). split; auto. split; auto. 
  assert (EP : B ^ p = B ^ l * B ^ (p - l)) by (rewrite <- Z.pow_add_r by lia; f_equal; lia).
  replace (l + (p - l)) with p in E by lia. rewrite <- E. rewrite EP.
  assert (K : p - l = 0 \/ p - l = 1 \/ p - l = 2) by lia.
  destruct K as [K|[K|K]]; rewrite K; rewrite ?Z.pow_0_r, ?Z.pow_1_r, ?Z.pow_2_r.
  - exists x, a1, a2. do 4 (split; [auto|]). rewrite ET. change (nth (Z.to_nat 0) [a0; a1; a2] 0) with a0. ring.
  - exists a0, x, a2. do 4 (split; [auto|]). rewrite ET. change (nth (Z.to_nat 1) [a0; a1; a2] 0) with a1. ring.
  - exists a0, a1, x. do 4 (split; [auto|]). rewrite ET. change (nth (Z.to_nat 2) [a0; a1; a2] 0) with a2. ring.
Qed.

Lemma wp_lhead : forall u sh T p (Q : Z -> Prop), lst l u0 u sh T -> p < l + 3 -> (0 <= p -> Q (vlimb T p)) -> (p < 0 -> Q 0) ->
  wp (lsh_head u sh (l + 1) p) Q.
Proof.
  intros u sh T p Q H Hp HQ HQ0. unfold lsh_head. replace (l + 1 - 1) with l by lia. apply wp_mif; intros E.
  - apply Z.leb_le in E. eapply wp_hload; eauto; try lia. apply HQ. lia.
  - apply Z.leb_gt in E. apply wp_mif; intros E2; [apply Z.leb_le in E2; eapply wp_lload; eauto; lia|]. apply Z.leb_gt in E2. apply wp_ret. auto.
Qed.

Lemma wx_lsh_step1 : forall e0 d q0 U Qv t j u sh T0 q (P : mp * list Z * option mp * bool -> Prop), dv_ok d -> 0 <= U -> Qv = U / dval d ->
  0 <= j -> 0 <= t -> dvn d + j < l + 3 -> lst l u0 u sh T0 -> T0 * B ^ t = rems U (dval d) (dv_shift d) (t + j + 1) -> qtinv q0 Qv (t + j + 1) q -> qnl q0 (t + j) ->
  (qst e0 q0 Qv (t + j + 1) \/ (qover q0 Qv /\ Qv / B ^ (t + j + 1) = 0 /\ exists b, q0 = Some b /\ t + j = nlimbs b)) ->
  (qst e0 q0 Qv (t + j) -> forall u' sh' q' T', lst l u0 u' sh' T' -> T' * B ^ t = rems U (dval d) (dv_shift d) (t + j) -> qtinv q0 Qv (t + j) q' -> P (u', sh', q', false)) ->
  (qover q0 Qv -> forall u' sh' q', mp_ok u' -> same_shape u0 u' -> qtinv q0 Qv (t + j + 1) q' -> P (u', sh', q', true)) ->
  wx e0 (div_lshifted_step1 d (dvn d) (l + 1) t j (u, sh, q, false)) P.
Proof.
  intros e0 d q0 U Qv t j u sh T0 q P Hd HU EQ Hj Ht HjN HS HT0 HI Hnl Hcase HF HO. unfold div_lshifted_step1.
  pose proof (dv_pos _ Hd) as (D0 & V0 & _). pose proof (dvo_n _ Hd) as Hn. pose proof (dvo_s _ Hd) as Hs. pose proof (dvo_V _ Hd) as VB.
  set (D := dval d) in *. set (s := dv_shift d) in *. set (n := dvn d) in *.
  assert (EV : dvV d = D * 2 ^ s) by reflexivity. set (V := dvV d) in *.
  pf (Bpow_pos j) as BJ. pf (Bpow_pos t) as BT. pose proof B_gt as BG.
  assert (RB : 0 <= T0 < V * B ^ (j + 1)).
  { pf (rems_bound U D s (t + j + 1)) as RB. rewrite <- EV, <- HT0 in RB. replace (t + j + 1) with (j + 1 + t) in RB by lia. rewrite Z.pow_add_r, Z.mul_assoc in RB by lia. clear - RB BT.
    split; [apply (mul_le_cancel (B ^ t)); lia|apply (mul_lt_cancel (B ^ t)); lia]. }
  assert (UB : 0 <= T0 / B ^ j < V * B).
  { split; [apply Z.div_pos; lia|]. apply Z.div_lt_upper_bound; [lia|]. rewrite Bpow_S in RB by auto. clear - RB. lia. }
  assert (LW : forall i, 0 <= i -> vlimb T0 (i + j) = vlimb (T0 / B ^ j) i). { intros. rewrite <- (limb_of_div T0 (i + j) j) by lia. f_equal. lia. }
  xb. eapply wp_lhead; [eauto|lia|intros _|lia]. xb. eapply wp_lhead; [eauto|lia|intros _|lia].
  xb. apply wp_mono with (Q := fun u2 => isl u2 /\ (2 <= n -> u2 = vlimb (T0 / B ^ j) (n - 2))).
  { eapply wp_lhead; [eauto|lia| |].
    - intros E. split; [apply vlimb_isl|]. intros. rewrite <- LW by lia. f_equal. lia.
    - intros E. split; [apply isl_0|lia]. }
  intros u2 (I2 & E2). xb. rewrite (LW n) by lia. replace (n + j - 1) with (n - 1 + j) by lia. rewrite (LW (n - 1)) by lia.
  apply wp_estimate with (U := T0 / B ^ j); auto. intros e He. pose proof He as (Ie & _). 
  set (mid := Z.max 0 (Z.min n (l + 1 - 1 - j))). assert (M1 : 0 <= mid <= n) by (unfold mid; lia). assert (M2 : forall i, 0 <= i < mid -> j + i < l) by (unfold mid; lia).
  assert (M3 : forall i, mid <= i < n -> l <= j + i) by (unfold mid; lia). clearbody mid.
  xb. eapply wp_for with (I := fun i '(u, bd, cy, bo) => exists T, lst l u0 u sh T /\ dvst d i bd cy /\ isl bo /\ subinv T0 e V j i bo T).
  { lia. } { exists T0. split; auto. split; [apply dvst_init; auto|]. split; [apply isl_0|apply subinv_init]. }
  { intros i [[[u1 bd] cy] bo] Hi (T & S1 & S2 & S3 & S4). specialize (M2 i Hi). 
    xb. eapply wp_lload; [eauto|lia|]. xb; apply wp_sub_qv; auto; [lia|apply vlimb_isl|].
    intros bd' cy' bo' x S2' S3' Hx Ex. xb. eapply wp_lstore; [eauto|lia|auto|]. intros u3 S1'. xr.
    replace (j + i) with (i + j) in * by lia. eexists. split; [eauto|]. split; auto. split; auto. eapply subinv_step; eauto; lia. }
  intros [[[u1 bd] cy] bo] (Tm & Sm & Sm2 & Sm3 & Sm4).
  xb. eapply wp_for with (I := fun i '(sh, bd, cy, bo) => exists T, lst l u0 u1 sh T /\ dvst d i bd cy /\ isl bo /\ subinv T0 e V j i bo T).
  { lia. } { exists Tm. auto. } { clear Tm Sm Sm2 Sm3 Sm4.
    intros i [[[sh1 bd1] cy1] bo1] Hi (T & S1 & S2 & S3 & S4). specialize (M3 i Hi). replace (l + 1 - 1) with l by lia.
    xb; apply wp_usub; [lia|]. xb. eapply wp_hload; [eauto|lia|]. xb; apply wp_sub_qv; auto; [lia|apply vlimb_isl|].
    intros bd' cy' bo' x S2' S3' Hx Ex. xb. eapply wp_hstore; [eauto|lia|auto|]. intros u3 S1'. xr.
    replace (j + i) with (i + j) in * by lia. eexists. split; [eauto|]. split; auto. split; auto. eapply subinv_step; eauto; lia. }
  intros [[[sh1 bd1] cy1] bo1] (T & S1 & S2 & S3 & S4). clear Tm Sm Sm2 Sm3 Sm4. apply (dvst_end d bd1 cy1 Hd) in S2. subst cy1.
  xb; apply wp_dassert; [reflexivity|]. 
  xb. replace (l + 1 - 1) with l by lia.
  apply wp_mono with (Q := fun '(u2, sh2, kb) => exists x, isl x /\ kb = b2z (vlimb T (n + j) <? bo1) /\ vlimb T (n + j) - bo1 = x - B * kb /\
     lst l u0 u2 sh2 (T + (x - vlimb T (n + j)) * B ^ (n + j))).
  { replace (j + n) with (n + j) by lia. xm; intros E.
    - apply Z.ltb_lt in E. xb. eapply wp_lload; [eauto|lia|]. xb; apply wp_sub_l; [apply vlimb_isl|auto|]. intros x Hx Ex.
      xb. eapply wp_lstore; [eauto|lia|auto|]. intros u3 S3'. xr. exists x. split; auto.
    - apply Z.ltb_ge in E. xb; apply wp_usub; [lia|]. xb. eapply wp_hload; [eauto|lia|]. xb; apply wp_sub_l; [apply vlimb_isl|auto|]. intros x Hx Ex.
      xb. eapply wp_hstore; [eauto|lia|auto|]. intros u3 S3'. xr. exists x. split; auto. }
  intros [[u3 sh2] kb] (x & Hx & -> & Ex & S1').
  set (b := vlimb T (n + j) <? bo1) in *.
  destruct (sub_final T0 e V j n bo1 T x (b2z b)) as (F1 & F2 & F3 & F4); auto; try lia. { destruct b; auto. }
  set (T1 := T + _) in *. xb. eapply wp_lc_new with (b := b); [auto|].
  assert (PE : B ^ (t + j) = B ^ j * B ^ t) by (rewrite Z.add_comm, Z.pow_add_r by lia; auto).
  destruct (rem_step U D s (t + j) (e - b2z b) ((T0 - (e - b2z b) * V * B ^ j) * B ^ t)) as (G1 & G2); auto; try lia.
  { rewrite <- EV, PE. split; [apply mul_nn; lia|]. rewrite Z.mul_assoc. apply Z.mul_lt_mono_pos_r; lia. }
  apply wx_bindx. apply wx_store_q with (q0 := q0) (Qv := Qv); auto; [|lia| | |].
  { subst Qv. apply Z.div_pos; lia. } { rewrite EQ. auto. }
  2:{ intros OV q' Hq'. xr. eapply HO; eauto; apply S1'. }
  intros FT q' HI'. xb.
  eapply wp_for with (I := fun i '(u, bd, cy) => exists T, lst l u0 u sh2 T /\ decinv (mpval (dv_v d)) (dv_dec0 d) i bd /\ 0 <= cy <= 2 ^ s /\ (b = false -> cy = 0) /\ addinv T1 D s b j i cy T).
  { lia. } { exists T1. destruct (scale_pow s Hs) as (P1 & _). split; auto. split; [apply decinv_init, Hd|]. split; [lia|]. split; [auto|apply addinv_init]. }
  { intros i [[u4 bd3] cy3] Hi (T3 & A1 & A2 & A3 & A4 & A5). specialize (M2 i Hi).
    xb. eapply wp_lload; [eauto|lia|]. xb; apply wp_add_v; auto; [lia|apply vlimb_isl|].
    intros bd' cy' y A2' A3' A4' Hy Ey. xb. eapply wp_lstore; [eauto|lia|auto|]. intros u5 A1'. xr.
    replace (j + i) with (i + j) in * by lia. eexists. split; [eauto|]. split; auto. split; auto. split; auto. eapply addinv_step; eauto; lia. }
  intros [[u4 bd3] cy3] (Tm & Am1 & Am2 & Am3 & Am4 & Am5). xb.
  eapply wp_for with (I := fun i '(sh, bd, cy) => exists T, lst l u0 u4 sh T /\ decinv (mpval (dv_v d)) (dv_dec0 d) i bd /\ 0 <= cy <= 2 ^ s /\ (b = false -> cy = 0) /\ addinv T1 D s b j i cy T).
  { lia. } { exists Tm. auto. } { clear Tm Am1 Am2 Am3 Am4 Am5.
    intros i [[sh4 bd4] cy4] Hi (T3 & A1 & A2 & A3 & A4 & A5). specialize (M3 i Hi). replace (l + 1 - 1) with l by lia.
    xb; apply wp_usub; [lia|]. xb. eapply wp_hload; [eauto|lia|]. xb; apply wp_add_v; auto; [lia|apply vlimb_isl|].
    intros bd' cy' y A2' A3' A4' Hy Ey. xb. eapply wp_hstore; [eauto|lia|auto|]. intros u5 A1'. xr.
    replace (j + i) with (i + j) in * by lia. eexists. split; [eauto|]. split; auto. split; auto. split; auto. eapply addinv_step; eauto; lia. }
  intros [[sh4 bd4] cy4] (T3 & A1 & A2 & A3 & A4 & A5). clear Tm Am1 Am2 Am3 Am4 Am5. replace (j + n) with (n + j) by lia. destruct (scale_pow s Hs) as (P1 & P2 & _).
  assert (FIN : forall k2 y, k2 = 0 \/ k2 = 1 -> isl y -> vlimb T3 (n + j) + cy4 = y + B * k2 -> (T3 + (y - vlimb T3 (n + j)) * B ^ (n + j)) * B ^ t = rems U D s (t + j)).
  { intros k2 y Hk2 Hy Ey. rewrite <- G1. f_equal. rewrite EV in *. apply (add_final T0 T1 e D s b j n cy4 T3 y k2); auto; lia. }
  xm; intros E.
  - apply Z.ltb_lt in E. xb. eapply wp_lload; [eauto|lia|].
    xb; apply wp_add_l; [apply vlimb_isl|unfold isl; lia|]. intros k2 y Hk2 Hy Ey.
    xb. eapply wp_lstore; [eauto|lia|auto|]. intros u5 A1'. xr. eapply HF; eauto.
  - apply Z.ltb_ge in E. xb; apply wp_usub; [lia|]. xb. eapply wp_hload; [eauto|lia|].
    xb; apply wp_add_l; [apply vlimb_isl|unfold isl; lia|]. intros k2 y Hk2 Hy Ey.
    xb. eapply wp_hstore; [eauto|lia|auto|]. intros sh5 A1'. xr. eapply HF; eauto.
Qed.
End St.
End Facts.
