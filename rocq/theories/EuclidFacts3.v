(** Facts about euclid_impl.rs (ModelEuclid.v): the batches until g has become zero. *)
From Coq Require Import ZArith List Bool Lia.
Require Import Verif.Spec Verif.Base Verif.Monad Verif.Wp Verif.ModelLimb Verif.LimbFacts Verif.LimbFacts2
  Verif.ModelBuf Verif.SpecBuf Verif.BufFacts Verif.BufFacts2 Verif.BufFacts3 Verif.UpFacts Verif.SpecMont Verif.SpecEuclid Verif.ModelEuclid Verif.GcdBound Verif.SpecSteps Verif.EuclidFacts Verif.EuclidFacts2.
Import ListNotations.
Open Scope Z_scope.

Section Facts.
Context {c : cfg}.


Lemma wp_nbatches : forall len (Q : Z -> Prop), 0 <= len -> gcd_len_ok len ->
  (forall nb, 0 <= nb -> 392 * len + 139 <= 17 * (nb * (W - 2)) -> nb * (W - 2) <= 24 * len + 80 -> Q nb) -> wp (nbatches len) Q.
Proof.
  intros len Q Hl Hg HQ. unfold gcd_len_ok in Hg. unfold nbatches. assert (HS : 30 <= STEPS_PER_BATCH <= 62) by (unfold STEPS_PER_BATCH; destruct W_cases; lia).
  apply wp_bind, wp_ovf; [lia|]. apply wp_bind, wp_ovf; [lia|]. apply wp_bind, wp_ovf; [lia|]. apply wp_bind, wp_ovf; [lia|]. apply wp_bind.
  apply wp_mono with (Q := fun nsteps => 392 * len + 139 <= 17 * nsteps /\ 17 * nsteps <= 392 * len + 178).
  - apply wp_mif; intros C; (apply wp_bind, wp_ovf; [lia|]); apply wp_ret.
    + pose proof (Z.div_mod (49 * (len * 8 + 1 + 1) + 80) 17). pose proof (Z.mod_pos_bound (49 * (len * 8 + 1 + 1) + 80) 17). lia.
    + pose proof (Z.div_mod (49 * (len * 8 + 1 + 1) + 57) 17). pose proof (Z.mod_pos_bound (49 * (len * 8 + 1 + 1) + 57) 17). lia.
  - intros nsteps [H1 H2]. apply wp_bind, wp_ovf; [lia|]. apply wp_bind, wp_usub; [lia|]. apply wp_ret.
    pose proof (Z.div_mod (nsteps + STEPS_PER_BATCH - 1) STEPS_PER_BATCH) as D. pose proof (Z.mod_pos_bound (nsteps + STEPS_PER_BATCH - 1) STEPS_PER_BATCH) as M.
    pose proof (Z.div_pos (nsteps + STEPS_PER_BATCH - 1) STEPS_PER_BATCH) as P. apply HQ; [lia|fold STEPS_PER_BATCH; lia|fold STEPS_PER_BATCH; lia].
Qed.

Lemma steps_rows_fst : forall k s, fst (fst (steps_rows k s)) = dsteps k s.
Proof.
  induction k as [|k IH]; intros s; [auto|]. cbn [steps_rows]. rewrite dsteps_S, <- IH. destruct (steps_rows k s) as [[[[d f] g] [[a b] s0]] [[e h] t]].
  unfold step_rows, divstep. cbn [fst]. destruct (0 <? d), (Z.odd g); cbn [andb]; f_equal; f_equal; lia.
Qed.
Lemma batches_dsteps : forall k s, batches k s = dsteps (k * Z.to_nat (W - 2)) s.
Proof.
  induction k as [|k IH]; intros s; [auto|]. cbn [batches]. rewrite steps_rows_fst, IH. replace (S k * Z.to_nat (W - 2))%nat with (k * Z.to_nat (W - 2) + Z.to_nat (W - 2))%nat by lia.
  rewrite dsteps_plus. auto.
Qed.
Lemma batches_at : forall i s, 0 <= i -> batches (Z.to_nat i) s = dsteps (Z.to_nat (i * (W - 2))) s.
Proof. intros. rewrite batches_dsteps. f_equal. pose proof W_cases. rewrite Z2Nat.inj_mul by lia. auto. Qed.

Definition gloop {S} (J : Z -> S -> Prop) (n F G : Z) (f g : mp) (i : Z) (st : Z * (Z * Z) * mp * (Z * Z) * mp * S) : Prop :=
  let '(delta, fsh, f', gsh, g', ext) := st in
  exists d F1 G1, dsteps (Z.to_nat (i * (W - 2))) (1, F, G) = (d, F1, G1) /\ delta = d mod 2 ^ UW /\ hrep n F1 f' fsh /\ hrep n G1 g' gsh /\
    same_shape f f' /\ same_shape g g' /\ J i ext.

(** What the update of the external state has to keep, for states which may depend on the number of batches done ... *)
Definition keeps_at {S} (J : Z -> S -> Prop) (upd : tmat -> (Z * Z) * (Z * Z) -> S -> M S) (F0 G0 : Z) : Prop :=
  forall i d a b s0 e h F G d1 F1 G1 ext, 0 <= i -> batches (Z.to_nat i) (1, F0, G0) = (d, F, G) ->
    steps_rows (Z.to_nat (W - 2)) (d, F, G) = ((d1, F1, G1), (a, b, s0), (e, h, W - 2)) ->
    0 <= s0 <= W - 2 -> rows_ok F G a b s0 F1 -> rows_ok F G e h (W - 2) G1 -> J i ext ->
    wp (upd (mk_tmat (trow_of a b s0) (trow_of e h (W - 2))) ((chc (negz a), chc (negz b)), (chc (negz e), chc (negz h))) ext) (J (i + 1)).
(** ... and on the numbers reached only. *)
Definition keeps {S} (J : Z -> Z -> S -> Prop) (upd : tmat -> (Z * Z) * (Z * Z) -> S -> M S) : Prop :=
  forall a b s0 e h F G F1 G1 ext, 0 <= s0 <= W - 2 -> rows_ok F G a b s0 F1 -> rows_ok F G e h (W - 2) G1 -> J F G ext ->
    wp (upd (mk_tmat (trow_of a b s0) (trow_of e h (W - 2))) ((chc (negz a), chc (negz b)), (chc (negz e), chc (negz h))) ext) (J F1 G1).

Lemma hrep_low0 : forall n F f sh (Q : Z * Z -> Prop) G g sh', 0 < n -> hrep n F f sh -> hrep n G g sh' -> Q (F mod B, G mod B) ->
  wp (mif (1 <? n) then (let! a := load_l_full f 0 in let! b := load_l_full g 0 in ret (a, b)) else ret (fst sh, fst sh')) Q.
Proof.
  intros n F f sh Q G g sh' Hn HF HG HQ. assert (E0 : forall X, vlimb X 0 = X mod B) by (intros; unfold vlimb; rewrite Z.pow_0_r, Z.div_1_r; auto).
  pose proof HF as (Of & Nf & _ & Sf). pose proof HG as (Og & Ng & _ & Sg).
  apply wp_mif; intros C; [apply Z.ltb_lt in C|apply Z.ltb_ge in C].
  - apply wp_bind, wp_load_full; [auto|lia|apply nlimbs_full; lia|]. rewrite limb_vlimb, (hrep_low n F f sh) by (auto; lia).
    apply wp_bind, wp_load_full; [auto|lia|apply nlimbs_full; lia|]. rewrite limb_vlimb, (hrep_low n G g sh') by (auto; lia).
    apply wp_ret. rewrite !E0. auto.
  - apply wp_ret. subst sh sh'. cbn [fst]. replace (n - 1) with 0 by lia. rewrite !E0. auto.
Qed.

Lemma top_sign : forall n F, 0 < n -> - B ^ n < F < B ^ n -> (vlimb F n = 0 \/ vlimb F n = B - 1) /\ vlimb F n / 2 ^ (W - 1) = b2z (F <? 0).
Proof.
  intros n F Hn HF. pose proof (Bpow_pos n). pose proof B_gt. pose proof W_pos.
  assert (E : vlimb F n = if F <? 0 then B - 1 else 0).
  { unfold vlimb. destruct (Z.ltb_spec F 0).
    - rewrite (div_eq_of F (B ^ n) (-1) (F + B ^ n)) by lia. rewrite <- (Z.mod_add _ 1), Z.mod_small by lia. lia.
    - rewrite Z.div_small by lia. apply Z.mod_0_l. lia. }
  rewrite E. destruct (F <? 0); cbn [b2z]; [|split; [auto|apply Z.div_0_l; pose proof (pow2_gt0 (W - 1)); lia]].
  split; [auto|]. pose proof B_pow2_half. apply (div_eq_of _ _ 1 (2 ^ (W - 1) - 1)); pose proof (pow2_gt0 (W - 1)); lia.
Qed.

Lemma store_top : forall n F f fsh (Q : mp -> Prop), 0 < n -> hrep n F f fsh ->
  (forall f', mp_ok f' -> same_shape f f' -> mpval f' = F mod 256 ^ mp_len f -> Q f') ->
  wp (store_l f (n - 1) ((vlimb F (n - 1)) mod lim f (n - 1))) Q.
Proof.
  intros n F f fsh Q Hn (O & N & E & _) HQ. pose proof (lim_pos f (n - 1)). pose proof (Bpow_pos (n - 1)).
  apply wp_store; [auto|lia|apply Z.mod_pos_bound; lia|]. intros f' (O' & S' & V'). apply HQ; [auto|auto|].
  rewrite <- lim_total by lia. rewrite N, mod_mul_split by lia. rewrite V', <- E.
  assert (HN : 0 < nlimbs f) by lia. destruct (lim_last_pow2 f HN) as (s & Hs & El). rewrite N in El.
  assert (EL : vlimb F (n - 1) mod lim f (n - 1) = (F / B ^ (n - 1)) mod lim f (n - 1)).
  { unfold vlimb. rewrite El, (B_split s) by lia. apply mod_mul_le; apply pow2_gt0; lia. }
  rewrite EL. rewrite (vdivmod (mpval f) (n - 1)) at 1 by lia. rewrite limb_vlimb. rewrite (vdiv_S (mpval f) (n - 1)) by lia.
  replace (n - 1 + 1) with n by lia. assert (Z0 : mpval f / B ^ n = 0) by (apply vdiv_full; auto; lia). rewrite Z0. ring.
Qed.

Lemma wp_gcd_ext_at : forall S (J : Z -> S -> Prop) upd f g ext (Q : _ -> Prop), mp_ok f -> mp_ok g -> nlimbs g = nlimbs f -> Z.odd (mpval f) = true ->
  gcd_len_ok (Z.max (mp_len f) (mp_len g)) -> keeps_at J upd (mpval f) (mpval g) -> J 0 ext ->
  (forall f' g' Ff ext' i d, mp_ok f' -> mp_ok g' -> same_shape f f' -> same_shape g g' -> Z.abs Ff = Z.gcd (mpval f) (mpval g) ->
     mpval f' = Ff mod 256 ^ mp_len f -> mpval g' = 0 -> 0 <= i -> batches (Z.to_nat i) (1, mpval f, mpval g) = (d, Ff, 0) -> J i ext' -> Q (chc (Ff <? 0), f', g', ext')) ->
  wp (ct_gcd_ext_odd_mp_mp upd f g ext) Q.
Proof.
  intros S J upd f g ext Q Of Og Ng HO HL HK HJ HQ. unfold ct_gcd_ext_odd_mp_mp. rewrite Ng. set (n := nlimbs f) in *. set (F := mpval f) in *. set (G := mpval g) in *.
  pose proof (mpval_bound f Of) as Bf. pose proof (mpval_bound g Og) as Bg. pose proof (mpval_bound_B f Of) as Bf2. pose proof (mpval_bound_B g Og) as Bg2. rewrite Ng in Bg2. fold n in Bf2. fold F in Bf, Bf2. fold G in Bg, Bg2.
  assert (Hn : 0 < n). { pose proof (nlimbs_nonneg f). destruct (Z.eq_dec n 0) as [E|E]; [|unfold n in *; lia]. rewrite E in Bf2. change (B ^ 0) with 1 in Bf2. assert (E1 : F = 0) by lia. rewrite E1 in HO. discriminate. }
  pose proof (mp_len_nonneg f). pose proof (mp_len_nonneg g).
  assert (V0 : forall X, vlimb X 0 = X mod B) by (intros; unfold vlimb; rewrite Z.pow_0_r, Z.div_1_r; auto).
  assert (OM : forall X, Z.odd (X mod B) = Z.odd X). { intros X. destruct (mod_shift X W) as [u ->]; [pose proof W_pos; lia|]. apply odd_shift. apply W_pos. }
  apply wp_bind, wp_dassert; [apply Z.eqb_refl|]. apply wp_bind, wp_dassert. { destruct (Z.eqb_spec n 0); [lia|auto]. }
  apply wp_bind, wp_dassert_m. { apply wp_bind, wp_load; [auto|fold n; lia|]. apply wp_ret. rewrite land1, limb_vlimb, V0, OM. fold F. rewrite HO. auto. }
  apply wp_bind, wp_nbatches; [lia|auto|]. intros nb Hnb HN1 HN2.
  apply wp_bind, wp_usub; [lia|]. apply wp_bind, wp_load; [auto|fold n; lia|]. apply wp_bind, wp_load; [auto|lia|]. rewrite !limb_vlimb. fold F. fold G.
  set (X := B ^ n - 1).
  assert (HB : forall i, let '(d, F1, G1) := dsteps i (1, F, G) in - B ^ n < F1 < B ^ n /\ - B ^ n < G1 < B ^ n).
  { intros i. pose proof (dsteps_bound X i 1 F G HO). destruct (dsteps i (1, F, G)) as [[d F1] G1]. unfold X in *. lia. }
  apply wp_bind. apply wp_for with (I := gloop J n F G f g).
  { auto. }
  { exists 1, F, G. split; [auto|]. split; [rewrite Z.mod_small; [auto|pose proof UW_gt; lia]|].
    assert (T : forall Y, 0 <= Y < B ^ n -> vlimb Y n = 0). { intros Y HY. unfold vlimb. rewrite Z.div_small by auto. apply Z.mod_0_l. pose proof B_gt. lia. }
    split; [split; [auto|split; [auto|split; [auto|rewrite T by auto; auto]]]|].
    split; [split; [auto|split; [auto|split; [auto|rewrite T by auto; auto]]]|]. split; [apply shape_refl|]. split; [apply shape_refl|]. auto. }
  { intros i [[[[[delta fsh] f'] gsh] g'] ex] Hi (d & F1 & G1 & ED & -> & HF & HG & SF & SG & HJ').
    pose proof (dsteps_odd (Z.to_nat (i * (W - 2))) (1, F, G) HO) as OF. pose proof (dsteps_delta (Z.to_nat (i * (W - 2))) (1, F, G)) as DD. rewrite ED in OF, DD. cbn [fst snd] in OF, DD.
    assert (WC : W = 32 \/ W = 64) by apply W_cases.
    assert (HiN : (i + 1) * (W - 2) <= nb * (W - 2)) by (rewrite !(Z.mul_comm _ (W - 2)); apply mul_le_l; lia).
    assert (Hi0 : 0 <= i * (W - 2)) by (apply mul_nn; lia).
    rewrite Z2Nat.id in DD by lia.
    apply wp_bind. eapply hrep_low0; [exact Hn|exact HF|exact HG|].
    apply wp_bind, wp_dassert. { rewrite land1, OM, OF. auto. }
    apply wp_bind, wp_batch; [auto| |].
    { unfold gcd_len_ok in HL. pose proof UW_pos. assert (2 ^ UW = 2 * 2 ^ (UW - 1)) by (rewrite <- Z.pow_succ_r by lia; f_equal; lia). lia. }
    intros a b e h s0 d1 F2 G2 ED2 Hs0 R0 R1 SR.
    assert (ED3 : dsteps (Z.to_nat ((i + 1) * (W - 2))) (1, F, G) = (d1, F2, G2)).
    { replace (Z.to_nat ((i + 1) * (W - 2))) with (Z.to_nat (i * (W - 2)) + Z.to_nat (W - 2))%nat by lia. rewrite dsteps_plus, ED. auto. }
    pose proof (HB (Z.to_nat ((i + 1) * (W - 2)))) as HB2. rewrite ED3 in HB2.
    unfold t_is_neg_mask. apply wp_bind. cbn [row0 row1].
    apply wp_bind, wp_row_neg; [auto|apply R0|]. apply wp_bind, wp_row_neg; [lia|apply R1|]. apply wp_ret.
    apply wp_bind. eapply wp_apply_fg with (F1 := F2) (G1 := G2); [exact Hn|auto|lia|exact R0|exact R1|exact HF|exact HG|lia|lia|].
    intros f2 g2 fsh2 gsh2 HF2 HG2 SF2 SG2. apply wp_bind. eapply wp_mono; [eapply (HK i d); [lia|rewrite batches_at by lia; exact ED|exact SR|auto|exact R0|exact R1|exact HJ']|]. intros ex2 HJ2.
    apply wp_ret. exists d1, F2, G2. split; [auto|]. split; [auto|]. split; [auto|]. split; [auto|].
    split; [eapply shape_trans; eauto|]. split; [eapply shape_trans; eauto|]. auto. }
  intros [[[[[delta fsh] f1] gsh] g1] ex] (d & F1 & G1 & ED & -> & HF & HG & SF & SG & HJ').
  assert (HE : G1 = 0).
  { set (N := Z.to_nat (nb * (W - 2))) in *. set (L := Z.max (mp_len f) (mp_len g)) in *.
    assert (HL1 : 256 ^ mp_len f <= 256 ^ L) by (apply Z.pow_le_mono_r; lia). assert (HL2 : 256 ^ mp_len g <= 256 ^ L) by (apply Z.pow_le_mono_r; lia).
    assert (1 <= L). { destruct (Z.eq_dec L 0) as [E|E]; [|lia]. rewrite E in *. change (256 ^ 0) with 1 in *. assert (E1 : F = 0) by lia. rewrite E1 in HO. discriminate. }
    pose proof (divsteps_enough L F G N) as HD. rewrite ED in HD. apply HD; auto; lia. }
  subst G1. pose proof (HB (Z.to_nat (nb * (W - 2)))) as HB2. pose proof (dsteps_gcd (Z.to_nat (nb * (W - 2))) 1 F G HO) as HG2. rewrite ED in HB2, HG2. rewrite Z.gcd_0_r in HG2.
  pose proof HF as (Of1 & Nf1 & Ef1 & ->). pose proof HG as (Og1 & Ng1 & Eg1 & ->). cbn [fst snd].
  assert (Z0 : forall k, 0 <= k -> vlimb 0 k = 0). { intros. unfold vlimb. rewrite Z.div_0_l by (pose proof (Bpow_pos k); lia). apply Z.mod_0_l. pose proof B_gt. lia. }
  rewrite !Z0 by lia. apply wp_bind, wp_dassert; [auto|]. pose proof (lim_pos g1 (n - 1)).
  apply wp_bind. apply wp_mono with (Q := fun g' => mp_ok g' /\ same_shape g1 g' /\ mpval g' = 0).
  { pose proof (store_top n 0 g1 _ (fun g' => mp_ok g' /\ same_shape g1 g' /\ mpval g' = 0) Hn HG) as ST. rewrite Z0, (Z.mod_0_l (lim g1 (n - 1))) in ST by lia. apply ST.
    intros f' A1 A2 A3. auto. }
  intros g2 (Og2 & Sg2 & Eg2). apply wp_bind, wp_dassert; [auto|].
  apply wp_bind. apply wp_for with (I := fun _ _ => True); [lia|auto| |].
  { intros k u Hk _. apply wp_dassert_m; [|auto]. apply wp_bind, wp_load; [auto|rewrite (shape_nlimbs g1 g2) by auto; lia|]. apply wp_ret. rewrite limb_vlimb, Eg2, Z0 by lia. auto. }
  intros u _. destruct (top_sign n F1 Hn) as [TS TD]; [lia|].
  apply wp_bind, wp_dassert. { rewrite lnot_0. apply orb_true_iff. rewrite !Z.eqb_eq. auto. }
  apply wp_bind, wp_sub32; [pose proof W_pos; lia|]. apply wp_bind, wp_lshr; [pose proof W_pos; lia|]. apply wp_bind, (wp_lc_new (F1 <? 0)); [auto|].
  apply wp_bind, wp_partial_high_mask; [lia|]. rewrite Nf1. apply wp_bind.
  assert (EH : Z.land (vlimb F1 (n - 1)) (lim f1 (n - 1) - 1) = vlimb F1 (n - 1) mod lim f1 (n - 1)). { rewrite <- Nf1. apply land_lim. lia. }
  rewrite EH. eapply store_top; [exact Hn|exact HF|]. intros f2 Of2 Sf2 Ef2. apply wp_ret.
  rewrite (shape_len f f1) in Ef2 by auto.
  apply (HQ f2 g2 F1 ex nb d); auto; [eapply shape_trans; eauto|eapply shape_trans; eauto|rewrite batches_at by lia; exact ED].
Qed.

Lemma wp_gcd_ext : forall S (J : Z -> Z -> S -> Prop) upd f g ext (Q : _ -> Prop), mp_ok f -> mp_ok g -> nlimbs g = nlimbs f -> Z.odd (mpval f) = true ->
  gcd_len_ok (Z.max (mp_len f) (mp_len g)) -> keeps J upd -> J (mpval f) (mpval g) ext ->
  (forall f' g' Ff ext', mp_ok f' -> mp_ok g' -> same_shape f f' -> same_shape g g' -> Z.abs Ff = Z.gcd (mpval f) (mpval g) ->
     mpval f' = Ff mod 256 ^ mp_len f -> mpval g' = 0 -> J Ff 0 ext' -> Q (chc (Ff <? 0), f', g', ext')) ->
  wp (ct_gcd_ext_odd_mp_mp upd f g ext) Q.
Proof.
  intros T J upd f g ext Q Of Og Ng HO HL HK HJ HQ.
  apply wp_gcd_ext_at with (J := fun i ext => forall d F G, batches (Z.to_nat i) (1, mpval f, mpval g) = (d, F, G) -> J F G ext); auto.
  - intros i d a b s0 e h F G d1 F1 G1 ex Hi EB SR Hs R0 R1 HJ'. eapply wp_mono; [apply (HK a b s0 e h F G F1 G1); eauto|].
    intros ex' H d' F' G' EB'. replace (Z.to_nat (i + 1)) with (S (Z.to_nat i)) in EB' by lia. cbn [batches] in EB'. rewrite EB, SR in EB'. cbn [fst] in EB'. inversion EB'; subst. auto.
  - intros d F G E. cbn in E. inversion E; subst. auto.
  - intros f' g' Ff ext' i d A1 A2 A3 A4 A5 A6 A7 A8 A9 A10. apply HQ; eauto.
Qed.

End Facts.
