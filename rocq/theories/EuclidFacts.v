(** Facts about euclid_impl.rs (ModelEuclid.v): a batch of division steps. *)
From Coq Require Import ZArith List Bool Lia.
Require Import Verif.Spec Verif.Base Verif.Monad Verif.Wp Verif.ModelLimb Verif.LimbFacts Verif.LimbFacts2
  Verif.ModelBuf Verif.SpecBuf Verif.BufFacts Verif.BufFacts2 Verif.BufFacts3 Verif.ModelEuclid Verif.GcdBound Verif.SpecSteps.
Import ListNotations.
Open Scope Z_scope.

Section Facts.
Context {c : cfg}.

Lemma lc_mask : forall b, lc_select (chc b) 0 (lnot 0) = chc b.
Proof. intros. pose proof isl_0. rewrite lc_select_chc by (auto; apply isl_lnot; auto). rewrite lnot_0. destruct b; auto. Qed.
Lemma lxor_chc : forall b v, isl v -> Z.lxor v (chc b) = if b then B - 1 - v else v.
Proof.
  intros [] v Hv; unfold chc; [|apply Z.lxor_0_r]. rewrite <- lnot_eq by auto. unfold lnot. rewrite ones_W. auto.
Qed.

(** Conditional negation. *)
Lemma cond_neg : forall (p q : bool) x, isl x ->
  Z.land (lwadd (Z.lxor x (chc p)) (lc_unwrap (chc p))) (lc_select (chc p) (lc_select (chc q) 0 (lnot 0)) (lnot 0)) = (if p then - x else if q then x else 0) mod B.
Proof.
  intros p q x Hx. pose proof B_gt. rewrite !lc_mask, lxor_chc, lc_unwrap_chc by auto. pose proof isl_0.
  rewrite lc_select_chc by (try apply isl_chc; apply isl_lnot; auto). rewrite lnot_0. unfold lwadd. unfold isl in *. destruct p; cbn [b2z].
  - replace (B - 1 - x + 1) with (- x + 1 * B) by lia. rewrite Z.mod_add by lia.
    change (B - 1) with (chc true). rewrite (land_chc_r true) by apply isl_mod. auto.
  - rewrite Z.add_0_r, (land_chc_r q) by apply isl_mod. destruct q; rewrite ?Z.mod_0_l by lia; auto.
Qed.

Definition trow_of (a b s : Z) : trow := mk_trow (a mod B) (b mod B) s.

Lemma isl_mask2 : forall p q, isl (lc_select (chc p) (lc_select (chc q) 0 (lnot 0)) (lnot 0)).
Proof.
  intros. rewrite lc_mask. rewrite lc_select_chc by (try apply isl_chc; apply isl_lnot, isl_0). destruct p; [apply isl_lnot, isl_0|apply isl_chc].
Qed.

Lemma wp_push_entry : forall (p q : bool) d x y (Q : Z -> Prop), 0 <= d < W ->
  Q ((y + 2 ^ d * (if p then - x else if q then x else 0)) mod B) ->
  wp (push_entry (chc p) (lc_select (chc p) 0 (lnot 0)) (lc_select (chc p) (lc_select (chc q) 0 (lnot 0)) (lnot 0)) d (x mod B) (y mod B)) Q.
Proof.
  intros p q d x y Q Hd HQ. unfold push_entry. pose proof B_pos. rewrite lc_mask, cond_neg by apply isl_mod.
  apply wp_bind, wp_lshl; [auto|]. apply wp_ret. unfold lwadd. rewrite Zmult_mod_idemp_l, <- Zplus_mod.
  assert (E : (y + (if p then - (x mod B) else if q then x mod B else 0) * 2 ^ d) mod B = (y + 2 ^ d * (if p then - x else if q then x else 0)) mod B); [|rewrite E; auto].
  set (D := 2 ^ d). pose proof (Z.div_mod x B) as E. set (qx := x / B) in *. set (rx := x mod B) in *. destruct p; [|destruct q; [|f_equal; lia]].
  - replace (y + D * - x) with (y + - rx * D + (- (D * qx)) * B) by (rewrite E by lia; ring). rewrite Z.mod_add by lia. auto.
  - replace (y + D * x) with (y + rx * D + (D * qx) * B) by (rewrite E by lia; ring). rewrite Z.mod_add by lia. auto.
Qed.

Lemma wp_push : forall a b e h s0 s1 (p q : bool) (Q : tmat -> Prop), 0 <= s0 <= s1 -> s1 < W - 1 ->
  (let k x := 2 ^ (s1 - s0) * (if p then - x else if q then x else 0) in
   Q (mk_tmat (if p then trow_of e h s1 else trow_of a b s0) (trow_of (e + k a) (h + k b) (s1 + 1)))) ->
  wp (push_transition (mk_tmat (trow_of a b s0) (trow_of e h s1)) (chc p) (chc q)) Q.
Proof.
  intros a b e h s0 s1 p q Q H0 H1 HQ. unfold push_transition, trow_of. pose proof W_pos. pose proof B_gt.
  assert (WB : W < B) by (pose proof (Z.pow_gt_lin_r 2 W); rewrite B_eq; lia).
  apply wp_bind, wp_lsub; [lia|]. apply wp_bind, wp_push_entry; [lia|]. apply wp_bind, wp_push_entry; [lia|].
  apply wp_bind, wp_ladd; [lia|]. apply wp_ret. cbv zeta in HQ. unfold trow_of in HQ.
  pose proof (isl_mod a). pose proof (isl_mod b). pose proof (isl_mod e). pose proof (isl_mod h).
  rewrite !lc_select_chc by (auto; unfold isl; lia). destruct p; exact HQ.
Qed.

(** ** One step *)
Lemma delta_pos : forall d, - 2 ^ (UW - 1) < d < 2 ^ (UW - 1) -> Z.shiftr ((- (d mod 2 ^ UW)) mod 2 ^ UW) (UW - 1) = b2z (0 <? d).
Proof.
  intros d Hd. pose proof UW_pos. pose proof (pow2_gt0 (UW - 1)). rewrite Z.shiftr_div_pow2 by lia.
  assert (E : 2 ^ UW = 2 * 2 ^ (UW - 1)) by (rewrite <- Z.pow_succ_r by lia; f_equal; lia). rewrite E. set (P := 2 ^ (UW - 1)) in *.
  assert (E2 : (- (d mod (2 * P))) mod (2 * P) = (- d) mod (2 * P)).
  { rewrite <- (Z.sub_0_l (d mod _)), <- (Z.sub_0_l d). rewrite Zminus_mod_idemp_r. auto. }
  rewrite E2. destruct (Z.ltb_spec 0 d); cbn [b2z].
  - rewrite <- (Z.mod_add _ 1) by lia. rewrite Z.mod_small by lia. apply (div_eq_of _ P 1 (P - d)); lia.
  - rewrite Z.mod_small by lia. apply Z.div_small. lia.
Qed.
Lemma delta_nonpos : forall d, - 2 ^ (UW - 1) < d < 2 ^ (UW - 1) -> (d mod 2 ^ UW =? 0) || (2 ^ (UW - 1) - 1 <? d mod 2 ^ UW) = negb (0 <? d).
Proof.
  intros d Hd. pose proof UW_pos. pose proof (pow2_gt0 (UW - 1)).
  assert (E : 2 ^ UW = 2 * 2 ^ (UW - 1)) by (rewrite <- Z.pow_succ_r by lia; f_equal; lia). rewrite E. set (P := 2 ^ (UW - 1)) in *.
  destruct (Z.ltb_spec 0 d).
  - rewrite Z.mod_small by lia. destruct (Z.eqb_spec d 0), (Z.ltb_spec (P - 1) d); cbn; lia.
  - destruct (Z.eq_dec d 0) as [->|N]; [rewrite Z.mod_0_l by lia; auto|]. rewrite <- (Z.mod_add _ 1), Z.mod_small by lia.
    destruct (Z.eqb_spec (d + 1 * (2 * P)) 0), (Z.ltb_spec (P - 1) (d + 1 * (2 * P))); cbn; lia.
Qed.

Lemma land1 : forall x, Z.land x 1 = b2z (Z.odd x).
Proof. intros. change 1 with (Z.ones 1). rewrite Z.land_ones by lia. change (2 ^ 1) with 2. rewrite Zmod_odd. destruct (Z.odd x); auto. Qed.
Lemma odd_shift : forall x m u, 0 < m -> Z.odd (x + 2 ^ m * u) = Z.odd x.
Proof.
  intros. replace (2 ^ m) with (2 * 2 ^ (m - 1)) by (rewrite <- Z.pow_succ_r by lia; f_equal; lia).
  rewrite Z.odd_add, <- Z.mul_assoc, Z.odd_mul. cbn [Z.odd andb]. destruct (Z.odd x); auto.
Qed.
Lemma sval_mod : forall v, exists t, sval v = v + B * t.
Proof. intros. unfold sval. destruct (v <? 2 ^ (W - 1)); [exists 0|exists (-1)]; lia. Qed.
Lemma B_split : forall m, 0 <= m <= W -> B = 2 ^ m * 2 ^ (W - m).
Proof. intros. rewrite <- Z.pow_add_r by lia. rewrite B_eq. f_equal. lia. Qed.
Lemma mod_shift : forall x m, 0 <= m <= W -> exists t, x mod B = x + 2 ^ m * t.
Proof.
  intros x m Hm. pose proof B_pos. exists (- (2 ^ (W - m) * (x / B))). rewrite Z.mod_eq by lia. rewrite (B_split m) at 1 by auto. ring.
Qed.

(** The numbers after [i] steps, their low bits, and the matrix taking [F], [G] there. *)
Definition rows_ok (F G a b s F1 : Z) : Prop := 2 ^ s * F1 = a * F + b * G /\ Z.abs a + Z.abs b <= 2 ^ s.
Definition binv (F G d0 i : Z) (st : Z * tmat * Z * Z) : Prop :=
  exists a b e h s0 fl gl di Fi Gi u v, dsteps (Z.to_nat i) (d0, F, G) = (di, Fi, Gi) /\
    st = (di mod 2 ^ UW, mk_tmat (trow_of a b s0) (trow_of e h i), fl, gl) /\ isl fl /\ isl gl /\
    fl = Fi + 2 ^ (W - i) * u /\ gl = Gi + 2 ^ (W - i) * v /\ 0 <= s0 <= i /\ rows_ok F G a b s0 Fi /\ rows_ok F G e h i Gi /\
    steps_rows (Z.to_nat i) (d0, F, G) = ((di, Fi, Gi), (a, b, s0), (e, h, i)).

Lemma abs_comb : forall e h x y P, Z.abs e + Z.abs h <= P -> Z.abs x + Z.abs y <= P -> Z.abs (e + x) + Z.abs (h + y) <= 2 * P.
Proof. intros. lia. Qed.

Lemma wp_batch_step : forall F G d0 i st (Q : _ -> Prop), Z.odd F = true -> 0 <= i < W - 2 -> Z.abs d0 + W < 2 ^ (UW - 1) ->
  binv F G d0 i st -> (forall st', binv F G d0 (i + 1) st' -> Q st') -> wp (batch_step st) Q.
Proof.
  intros F G d0 i st Q HF Hi Hd (a & b & e & h & s0 & fl & gl & di & Fi & Gi & u & v & ED & -> & If & Ig & Ef & Eg & Hs & [R0 N0] & [R1 N1] & SR) HQ.
  pose proof (dsteps_delta (Z.to_nat i) (d0, F, G)) as DD. pose proof (dsteps_odd (Z.to_nat i) (d0, F, G) HF) as OF. rewrite ED in DD, OF. cbn [fst snd] in DD, OF.
  rewrite Z2Nat.id in DD by lia. pose proof B_gt. pose proof UW_pos as UP. pose proof (pow2_gt0 (UW - 1)). pose proof (pow2_gt0 UW) as UG.
  unfold batch_step. apply wp_bind, (wp_lc_new (0 <? di)); [apply delta_pos; lia|]. cbv zeta. rewrite delta_nonpos by lia. rewrite lc_unwrap_chc.
  apply wp_bind, wp_dassert; [destruct (0 <? di); auto|]. apply wp_bind, wp_dassert; [destruct (0 <? di); auto|].
  assert (OG : Z.odd gl = Z.odd Gi) by (rewrite Eg; apply odd_shift; lia).
  apply wp_bind, (wp_lc_new (Z.odd Gi)). { rewrite land1, OG. auto. }
  rewrite lc_and_chc. set (p := (0 <? di) && Z.odd Gi). set (q := Z.odd Gi).
  apply wp_bind, wp_push; [lia|lia|]. cbv zeta.
  rewrite (lc_mask p), cond_neg by auto. set (K := if p then - fl else if q then fl else 0). set (KF := if p then - Fi else if q then Fi else 0).
  assert (EK : exists w, K = KF + 2 ^ (W - i) * w).
  { subst K KF. destruct p; [exists (- u); lia|]. destruct q; [exists u; lia|exists 0; lia]. }
  destruct EK as [w EK].
  (* the next state of the specification *)
  assert (ED' : dsteps (Z.to_nat (i + 1)) (d0, F, G) = ((if p then 1 - di else 1 + di), (if p then Gi else Fi), (Gi + KF) / 2) /\ 2 * ((Gi + KF) / 2) = Gi + KF).
  { replace (Z.to_nat (i + 1)) with (S (Z.to_nat i)) by lia. rewrite dsteps_S, ED. unfold divstep. fold p. subst KF q p.
    pose proof (odd_half_add Fi Gi OF) as HA. destruct (0 <? di), (Z.odd Gi) eqn:OGi; cbn [andb] in *; split; auto; try (f_equal; f_equal; lia).
    pose proof (odd_half_sub Fi Gi OF OGi). replace (Gi + - Fi) with (Gi - Fi) by lia. auto. }
  destruct ED' as [ED' E2]. set (Gn := (Gi + KF) / 2) in *.
  rewrite lc_select_usize_chc by (apply Z.mod_pos_bound; lia). rewrite lc_select_chc by auto.
  apply wp_bind, wp_arith_rshift; [apply isl_mod|pose proof W_pos; lia|]. apply wp_ret.
  unfold lwadd. change (2 ^ 1) with 2. rewrite Z.add_mod_idemp_r by lia.
  (* the new low limb of g *)
  assert (EM : 2 ^ (W - i) = 2 * 2 ^ (W - (i + 1))) by (rewrite <- Z.pow_succ_r by lia; f_equal; lia).
  assert (LG : exists v', (sval ((gl + K) mod B) / 2) mod B = Gn + 2 ^ (W - (i + 1)) * v').
  { destruct (sval_mod ((gl + K) mod B)) as [t1 ->]. destruct (mod_shift (gl + K) (W - i)) as [t2 ->]; [lia|]. 
    assert (EB : B = 2 ^ (W - i) * 2 ^ i) by (rewrite (B_split (W - i)) at 1 by lia; f_equal; f_equal; lia).
    assert (EX : gl + K + 2 ^ (W - i) * t2 + B * t1 = (Gn + 2 ^ (W - (i + 1)) * (v + w + t2 + 2 ^ i * t1)) * 2).
    { rewrite EB, Eg, EK, EM. transitivity ((Gi + KF) + 2 * (2 ^ (W - (i + 1)) * (v + w + t2 + 2 ^ i * t1))); [ring|]. rewrite <- E2. ring. }
    rewrite EX, Z.div_mul by lia.
    destruct (mod_shift (Gn + 2 ^ (W - (i + 1)) * (v + w + t2 + 2 ^ i * t1)) (W - (i + 1))) as [t3 ->]; [lia|].
    eexists. rewrite <- Z.add_assoc, <- Z.mul_add_distr_l. reflexivity. }
  destruct LG as [v' LG]. set (gn := (sval ((gl + K) mod B) / 2) mod B) in *.
  apply HQ. clear HQ. 
  set (k := fun x => 2 ^ (i - s0) * (if p then - x else if q then x else 0)).
  exists (if p then e else a), (if p then h else b), (e + k a), (h + k b), (if p then i else s0), (if p then gl else fl), gn.
  exists (if p then 1 - di else 1 + di), (if p then Gi else Fi), Gn, (if p then 2 * v else 2 * u), v'.
  split; [exact ED'|]. split.
  { subst k. cbv beta. destruct p; rewrite ?Zminus_mod_idemp_r, ?Zplus_mod_idemp_r; auto. }
  split; [destruct p; auto|]. split; [apply isl_mod|]. split; [rewrite Ef, Eg, EM; destruct p; lia|]. split; [auto|].
  split; [destruct p; lia|]. split; [destruct p; split; auto|].
  assert (P2 : 2 ^ i = 2 ^ (i - s0) * 2 ^ s0) by (rewrite <- Z.pow_add_r by lia; f_equal; lia). pose proof (pow2_gt0 (i - s0)).
  assert (N0' : 2 ^ (i - s0) * Z.abs a + 2 ^ (i - s0) * Z.abs b <= 2 ^ i). { rewrite P2, <- Z.mul_add_distr_l. apply mul_le_l; lia. }
  assert (R0' : 2 ^ i * Fi = 2 ^ (i - s0) * (a * F + b * G)). { rewrite P2, <- Z.mul_assoc, R0. auto. }
  assert (P1 : 2 ^ (i + 1) = 2 * 2 ^ i) by (apply pow_S; lia).
  assert (Ak : forall x, Z.abs (2 ^ (i - s0) * x) = 2 ^ (i - s0) * Z.abs x) by (intros; rewrite Z.abs_mul, (Z.abs_eq (2 ^ _)) by lia; auto).
  split; [|
    replace (Z.to_nat (i + 1)) with (S (Z.to_nat i)) by lia; cbn [steps_rows]; rewrite SR; unfold step_rows; cbv zeta; fold p; fold q;
    replace (Gi + (if p then -1 else if q then 1 else 0) * Fi) with (Gi + KF) by (subst KF; destruct p; [|destruct q]; ring); fold Gn;
    replace (e + 2 ^ (i - s0) * (if p then -1 else if q then 1 else 0) * a) with (e + k a) by (subst k; cbv beta; destruct p; [|destruct q]; ring);
    replace (h + 2 ^ (i - s0) * (if p then -1 else if q then 1 else 0) * b) with (h + k b) by (subst k; cbv beta; destruct p; [|destruct q]; ring);
    destruct p; reflexivity]. split.
  - rewrite P1. transitivity (2 ^ i * (2 * Gn)); [ring|]. rewrite E2, Z.mul_add_distr_l, R1.
    assert (EKF : 2 ^ i * KF = k a * F + k b * G). { subst KF k. cbv beta. destruct p; [rewrite <- Z.mul_opp_comm, Z.mul_opp_l, R0'; ring|]. destruct q; [rewrite R0'|]; ring. }
    rewrite EKF. ring.
  - rewrite P1. apply abs_comb; [auto|]. subst k. cbv beta. rewrite !Ak. destruct p; [rewrite !Z.abs_opp; auto|]. destruct q; [auto|cbn [Z.abs]; lia].
Qed.

Lemma wp_batch : forall F G d0 (Q : Z * tmat -> Prop), Z.odd F = true -> Z.abs d0 + W < 2 ^ (UW - 1) ->
  (forall a b e h s0 d1 F1 G1, dsteps (Z.to_nat (W - 2)) (d0, F, G) = (d1, F1, G1) -> 0 <= s0 <= W - 2 ->
     rows_ok F G a b s0 F1 -> rows_ok F G e h (W - 2) G1 -> steps_rows (Z.to_nat (W - 2)) (d0, F, G) = ((d1, F1, G1), (a, b, s0), (e, h, W - 2)) ->
     Q (d1 mod 2 ^ UW, mk_tmat (trow_of a b s0) (trow_of e h (W - 2)))) ->
  wp (batch_divsteps (d0 mod 2 ^ UW) (F mod B) (G mod B)) Q.
Proof.
  intros F G d0 Q HF Hd HQ. unfold batch_divsteps. pose proof B_gt. assert (WC : 32 <= W) by (destruct W_cases; lia).
  destruct (mod_shift F W) as [u Eu]; [lia|]. destruct (mod_shift G W) as [v Ev]; [lia|].
  apply wp_bind, wp_dassert. { rewrite land1, Eu, odd_shift, HF by lia. auto. }
  apply wp_bind. apply wp_for with (I := binv F G d0).
  - unfold STEPS_PER_BATCH. lia.
  - exists 1, 0, 0, 1, 0, (F mod B), (G mod B), d0, F, G, u, v. rewrite !Z.sub_0_r. split; [auto|]. split.
    { unfold tm_identity, trow_of. rewrite Z.mod_0_l, (Z.mod_small 1) by lia. auto. }
    split; [apply isl_mod|]. split; [apply isl_mod|]. split; [auto|]. split; [auto|]. split; [lia|].
    split; [split; cbn [Z.pow Z.abs]; lia|]. split; [split; cbn [Z.pow Z.abs]; lia|reflexivity].
  - intros i st Hi HI. unfold STEPS_PER_BATCH in Hi. apply (wp_batch_step F G d0 i); auto.
  - unfold STEPS_PER_BATCH. intros st (a & b & e & h & s0 & fl & gl & di & Fi & Gi & u' & v' & ED & -> & _ & _ & _ & _ & Hs & R0 & R1 & SR).
    apply wp_ret. eapply HQ; eauto.
Qed.

(** The masks telling negative matrix entries. *)
Definition negz (x : Z) : bool := x <? 0.
Lemma neg_msb : forall x, - 2 ^ (W - 1) <= x < 2 ^ (W - 1) -> (x mod B) / 2 ^ (W - 1) = b2z (negz x).
Proof.
  intros x Hx. pose proof B_pow2_half as E. pose proof W_pos. rewrite E. set (P := 2 ^ (W - 1)) in *. unfold negz. destruct (Z.ltb_spec x 0); cbn [b2z].
  - rewrite <- (Z.mod_add _ 1), Z.mod_small by lia. apply (div_eq_of _ P 1 (x + P)); lia.
  - rewrite Z.mod_small by lia. apply Z.div_small. lia.
Qed.
Lemma mod_negz : forall x, - 2 ^ (W - 1) <= x < 2 ^ (W - 1) -> x mod B = x + B * b2z (negz x).
Proof.
  intros x Hx. pose proof B_pow2_half as E. unfold negz. destruct (Z.ltb_spec x 0); cbn [b2z].
  - rewrite <- (Z.mod_add _ 1), Z.mod_small by lia. lia.
  - rewrite Z.mod_small by lia. lia.
Qed.
Lemma row_small : forall a b s, 0 <= s <= W - 2 -> Z.abs a + Z.abs b <= 2 ^ s -> (- 2 ^ (W - 1) <= a < 2 ^ (W - 1)) /\ (- 2 ^ (W - 1) <= b < 2 ^ (W - 1)).
Proof.
  intros a b s Hs H. assert (2 ^ s < 2 ^ (W - 1)) by (apply Z.pow_lt_mono_r; lia). lia.
Qed.
Lemma wp_row_neg : forall a b s (Q : Z * Z -> Prop), 0 <= s <= W - 2 -> Z.abs a + Z.abs b <= 2 ^ s ->
  Q (chc (negz a), chc (negz b)) -> wp (row_neg_mask (trow_of a b s)) Q.
Proof.
  intros a b s Q Hs Ha HQ. unfold row_neg_mask, trow_of. cbn [tf tg]. pose proof W_pos. destruct (row_small a b s Hs Ha) as [A1 A2].
  apply wp_bind, wp_sub32; [lia|]. apply wp_bind, wp_lshr; [lia|]. apply wp_bind, (wp_lc_new (negz a)); [apply neg_msb; auto|].
  apply wp_bind, wp_sub32; [lia|]. apply wp_bind, wp_lshr; [lia|]. apply wp_bind, (wp_lc_new (negz b)); [apply neg_msb; auto|].
  apply wp_ret. rewrite !lc_mask. auto.
Qed.

End Facts.
