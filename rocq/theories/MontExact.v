(** Exactly when Montgomery multiplication works: rounds losing a carry and sums too large for their buffer. *)
From Coq Require Import ZArith Znumtheory List Bool Lia.
Require Import Verif.Spec Verif.Base Verif.Monad Verif.Wp Verif.Pan Verif.Wx Verif.ModelLimb Verif.LimbFacts Verif.LimbFacts2
  Verif.ModelBuf Verif.SpecBuf Verif.BufFacts Verif.BufFacts2 Verif.BufFacts3 Verif.BufProofs Verif.UpFacts Verif.ModelCmp Verif.CmpFacts
  Verif.ModelAdd Verif.AddFacts Verif.AddFacts2 Verif.ModelMont Verif.SpecMont Verif.SpecMontValue Verif.MontFacts Verif.MontFacts2 Verif.MontFacts3 Verif.MontFacts4 Verif.MontFacts5 Verif.MontFacts6.
Import ListNotations.
Open Scope Z_scope.

Section Facts.
Context {c : cfg}.

Lemma Bpow_coprime : forall n i, Z.odd n = true -> 0 <= i -> Z.gcd n (B ^ i) = 1.
Proof.
  intros n i Hn Hi. pose proof W_pos as WP. rewrite B_eq, <- Z.pow_mul_r by lia. apply Zgcd_1_rel_prime.
  apply Zpow_facts.rel_prime_Zpower_r; [apply Z.mul_nonneg_nonneg; lia|]. apply odd_coprime2; auto.
Qed.

Lemma cancel_odd : forall i N M M' X s s', 0 <= i -> Z.odd N = true -> 0 <= M < B ^ i -> 0 <= M' < B ^ i ->
  B ^ i * s = X + M * N -> B ^ i * s' = X + M' * N -> s = s'.
Proof.
  intros i N M M' X s s' Hi HO HM HM' E E'. pf (Bpow_pos i) as PI.
  assert (D : (B ^ i | N * (M - M'))) by (exists (s - s'); lia).
  apply Gauss in D; [|apply Zgcd_1_rel_prime; rewrite Z.gcd_comm; apply Bpow_coprime; auto]. destruct D as [q D].
  assert (Q0 : - B ^ i < q * B ^ i < B ^ i) by lia.
  assert (q = 0) by (clear - Q0 PI; nia). subst q. assert (M = M') by lia. subst M'.
  apply (Z.mul_reg_l _ _ (B ^ i)); lia.
Qed.

Lemma acc_rng : forall t p sh cy, 0 <= p -> isl sh -> (cy = 0 \/ cy = 1) -> 0 <= acc t p sh cy < 2 * B ^ (p + 1).
Proof. intros t p sh cy Hp Hs Hc. rewrite acc_accT. pf (accT_rng (mpval t) p sh). pf (Bpow_pos (p + 1)). destruct Hc as [->| ->]; lia. Qed.

(** The multiple of the modulus to be added is determined. *)
Lemma redc_digit : forall n g t m a, neg_inv n g -> 0 <= m < B -> B * a = t + m * mpval n -> m = (t * g) mod B.
Proof.
  intros n g t m a [_ HG] Hm E. pose proof B_pos as BP. apply Z.mod_divide in HG; [|lia]. destruct HG as [q HG].
  apply Z.mod_unique with (a * g - m * q); [lia|].
  assert (E2 : B * a * g = t * g + m * (mpval n * g)) by (rewrite E; ring). replace (mpval n * g) with (q * B - 1) in E2 by lia. lia.
Qed.

Lemma mg_sum_step : forall n g x y i m a k, 0 < mg_radix n -> neg_inv n g -> 0 <= m < B -> (k = 0 \/ k = 1) ->
  0 <= mg_sum (mpval n) (mg_radix n) g x y i + (x / B ^ Z.of_nat i) mod B * y - k * (B * mg_radix n) < B * mg_radix n ->
  B * a + k * (B * mg_radix n) = mg_sum (mpval n) (mg_radix n) g x y i + (x / B ^ Z.of_nat i) mod B * y + m * mpval n ->
  a = mg_sum (mpval n) (mg_radix n) g x y (S i).
Proof.
  intros n g x y i m a k RP HG Hm Hk HK E. cbn [mg_sum]. set (T := mg_sum (mpval n) (mg_radix n) g x y i + (x / B ^ Z.of_nat i) mod B * y) in *.
  cbv zeta. pose proof B_pos as BP.
  rewrite <- (Z.mod_unique T (B * mg_radix n) k (T - k * (B * mg_radix n))) by lia.
  assert (E2 : B * a = T - k * (B * mg_radix n) + m * mpval n) by lia.
  rewrite <- (redc_digit n g _ m a HG Hm E2). rewrite <- E2. rewrite Z.mul_comm, Z.div_mul; lia.
Qed.

(** The state of the outer loops after [i] rounds; [x] is the part of op0 multiplied in so far, [F] has a digit 1 for each
    carry lost, [P] says that none was, [V] is the value of the sum. *)
Definition xinv (r0 : mp) (p x O N R i : Z) (P : Prop) (V : Z) (s : mp * Z * Z) : Prop :=
  let '(t', cy, sh) := s in mp_ok t' /\ same_shape r0 t' /\ (cy = 0 \/ cy = 1) /\ isl sh /\ acc t' p sh cy = V /\
  exists M F, 0 <= M < B ^ i /\ 0 <= F /\ F * (B - 1) < B ^ i /\ (F = 0 <-> P) /\ (0 < F -> B * R < B * O + N) /\
    B ^ i * acc t' p sh cy + B * R * F = x * O + M * N.

Definition kept (op0 op1 n : mp) (k : Z) : Prop :=
  forall i M s, 0 <= i < k -> 0 <= M < B ^ i -> B ^ i * s = (mpval op0 mod B ^ i) * mpval op1 + M * mpval n ->
  s + (mpval op0 / B ^ i) mod B * mpval op1 < B * mg_radix n.

(** The lost carries do not cancel. *)
Lemma lost_wrong : forall N R O i F v X M, Z.odd N = true -> 0 < N -> 0 <= i -> R = B ^ i -> 0 <= O < N -> F * (B - 1) < R -> 0 < F -> B * R < B * O + N ->
  R * v + B * R * F = X + M * N -> (v * R) mod N <> X mod N.
Proof.
  intros N R O i F v X M HO HN Hi ER HOn HF F0 HL HE H. pose proof B_gt as BG. pf (Bpow_pos i) as PI. rewrite <- ER in PI.
  apply mod_eq_div in H; [|auto].
  assert (D : (N | B ^ (i + 1) * F)).
  { destruct H as [q H]. exists (M - q). rewrite Bpow_S, <- ER by auto. lia. }
  apply Gauss in D; [|apply Zgcd_1_rel_prime; apply Bpow_coprime; auto; lia].
  apply Z.divide_pos_le in D; [|auto].
  pf (mul_le_l (B - 1) N F) as L1. pf (mul_le_l B O N) as L0. assert (L2 : B * R < (B + 1) * N) by lia.
  assert (L3 : (B + 1) * N <= 2 * ((B - 1) * N)) by (clear - BG HN; nia).
  assert (L4 : 4 * R <= B * R) by (clear - BG PI; nia). lia.
Qed.

(** Everything up to the final subtraction. *)
Lemma wx_mg_mul : forall e r op0 op1 n g (Q : Monad.result unit mg_err * mp -> Prop), mp_ok r -> mp_ok op0 -> mp_ok op1 -> mp_ok n ->
  Z.odd (mpval n) = true -> neg_inv n g -> len_compat n (mp_len r) -> len_compat op0 (mp_len n) -> len_compat op1 (mp_len n) ->
  mpval op0 < mpval n -> mpval op1 < mpval n -> (0 < nlimbs op0 -> load0_ok op1) ->
  (forall rf r0 t1 cy sh M F p, mp_ok rf -> same_shape r rf -> mpval rf = 0 -> mp_ok r0 -> kind_of r0 = kind_of r ->
     mp_len r0 = shrunk_len r (mp_len n) -> mpval n < 256 ^ mp_len r0 -> nlimbs r0 = nlimbs n -> nlimbs n = p + 1 -> 0 <= p ->
     mp_ok t1 -> same_shape r0 t1 -> (cy = 0 \/ cy = 1) -> isl sh -> acc t1 p sh cy < mpval op1 + mpval n ->
     0 <= M < mg_radix n -> 0 <= F -> F * (B - 1) < mg_radix n -> (F = 0 <-> mg_no_carry_lost op0 op1 n) ->
     (0 < F -> B * mg_radix n < B * mpval op1 + mpval n) ->
     mg_radix n * acc t1 p sh cy + B * mg_radix n * F = mpval op0 * mpval op1 + M * mpval n ->
     acc t1 p sh cy = mg_sum (mpval n) (mg_radix n) g (mpval op0) (mpval op1) (Z.to_nat (nlimbs n)) ->
     wx e (let! result := mg_finish t1 n n (p + 1) cy sh in ret (Ok tt, mp_unshrink rf result)) Q) ->
  wx e (ct_montgomery_mul_mod_mp_mp r op0 op1 n g) Q.
Proof.
  intros e r op0 op1 n g Q Hr H0 H1 Hn HO HG C C0 C1 V0 V1 L1 HQ.
  destruct (odd_nlimbs n Hn HO) as [N0 NP]. destruct (neg_inv_lwmul n g HG) as [HL Hg].
  pose proof (mp_len_nonneg r) as Lr. pose proof (mp_len_nonneg n) as Ln.
  destruct (compat_nlimbs n (mp_len r) Hn Lr C) as [NN NV]. fold (nlimbs r) in NN.
  destruct (compat_nlimbs op0 (mp_len n) H0 Ln C0) as [NN0 _]. fold (nlimbs n) in NN0.
  destruct (compat_nlimbs op1 (mp_len n) H1 Ln C1) as [NN1 _]. fold (nlimbs n) in NN1.
  pose proof (mpval_nonneg op0 H0) as P0. pose proof (mpval_nonneg op1 H1) as P1.
  unfold ct_montgomery_mul_mod_mp_mp. apply wx_mif; intros E. { rewrite empty_nlimbs in E. apply Z.eqb_eq in E. lia. } clear E.
  apply wx_bind, wp_load; [auto|lia|]. rewrite limb_vlimb. apply wx_bind. rewrite odd_land by apply vlimb_isl. rewrite vlimb0_odd, HO.
  apply wp_eq_l; [apply isl_1|apply isl_0|]. change (b2z true =? 0) with false. rewrite lc_unwrap_chc.
  apply wx_mif; intros E; [discriminate|]. clear E.
  apply wx_bind, wp_compat; [auto|lia|auto|]. apply wx_mif; intros E; [discriminate|]. clear E.
  apply wx_bind, wp_dassert; [apply Z.leb_le; lia|].
  apply wx_bind, wp_compat; [auto|lia|auto|].
  apply wx_bind. apply wp_mif; intros E; [discriminate|]. clear E.
  apply wp_bind, wp_compat; [auto|lia|auto|]. apply wp_ret. apply wx_mif; intros E; [discriminate|]. clear E.
  apply wx_bind, wp_dassert; [apply Z.leb_le; lia|]. apply wx_bind, wp_dassert_lt; auto.
  apply wx_bind, wp_dassert; [apply Z.leb_le; lia|]. apply wx_bind, wp_dassert_lt; auto.
  apply wx_bind, wp_dassert; [rewrite HL, lnot_eq by apply isl_0; apply Z.eqb_eq; lia|].
  apply wx_bind, wp_clear_above; [auto|lia|]. intros rf (Of & Sf & Ef). change (256 ^ 0) with 1 in Ef. rewrite Z.mod_1_r in Ef.
  destruct (shrunk_n rf n) as (SN & SL & _); [auto|unfold len_compat; rewrite (shape_len _ _ Sf); auto|].
  apply wx_bind, wp_shrink_to; [auto|lia|rewrite Ef; apply p256_pos; lia|]. intros r0 O0 K0 L0 E0. rewrite Ef in E0.
  assert (SLN : shrunk_len rf (mp_len n) = shrunk_len r (mp_len n)).
  { unfold shrunk_len. rewrite (shape_len _ _ Sf). destruct Sf as [Kf _]. destruct r, rf; cbn in Kf; try discriminate; reflexivity. }
  rewrite SLN in L0. rewrite (shape_len _ _ Sf) in SL. rewrite SLN, <- L0 in SN, SL. fold (nlimbs r0) in SN.
  assert (NV0 : mpval n < 256 ^ mp_len r0).
  { pose proof (mpval_bound n Hn) as NB. assert (256 ^ Z.min (mp_len r) (mp_len n) <= 256 ^ mp_len r0) by (apply Z.pow_le_mono_r; lia).
    destruct (Z.min_spec (mp_len r) (mp_len n)) as [[? EM]|[? EM]]; rewrite EM in H; lia. }
  assert (K0' : kind_of r0 = kind_of r) by (rewrite K0; destruct Sf; auto).
  apply wx_bind, wp_dassert; [apply Z.eqb_eq; lia|].
  set (p := nlimbs n - 1). assert (Np : nlimbs n = p + 1) by lia. assert (Hp : 0 <= p) by lia.
  pose proof B_gt as BG.
  assert (ER : mg_radix n = B ^ (p + 1)) by (unfold mg_radix; rewrite Np; auto).
  set (R := mg_radix n) in *. assert (RP : 0 < R) by (rewrite ER; apply Bpow_pos; lia).
  assert (EBR : B ^ (p + 2) = B * R) by (replace (p + 2) with (p + 1 + 1) by lia; rewrite Bpow_S, ER by lia; auto).
  pose proof (mpval_bound_B n Hn) as NB. rewrite Np, <- ER in NB.
  apply wx_bind. apply wp_for with (I := fun i => xinv r0 p (mpval op0 mod B ^ i) (mpval op1) (mpval n) R i (kept op0 op1 n i) (mg_sum (mpval n) R g (mpval op0) (mpval op1) (Z.to_nat i))); [apply nlimbs_nonneg| | |].
  { split; [auto|]. split; [apply shape_refl|]. split; [auto|]. split; [apply isl_0|].
    split. { unfold acc. rewrite E0, Z.mod_0_l by (pf (Bpow_pos p); lia). cbn. lia. } exists 0, 0. change (B ^ 0) with 1. split; [lia|]. split; [lia|]. split; [lia|].
    split. { split; [|auto]. intros _ i M s Hi. exfalso; lia. } split; [lia|].
    rewrite Z.mod_1_r. unfold acc. rewrite E0. rewrite Z.mod_0_l by (pf (Bpow_pos p); lia). lia. }
  { intros i ((t1, cy1), sh1) Hi (O1 & S1 & Hc1 & Hs1 & HV & M & F & HM & F0 & FB & FK & FL & HE). assert (I0 : 0 <= i) by lia. pf (Bpow_pos i) as PI.
    pf (Z.mod_pos_bound (mpval op0) (B ^ i)) as MB. pose proof (vlimb_isl (mpval op0) i) as Hv.
    assert (AB : acc t1 p sh1 cy1 < mpval op1 + mpval n).
    { apply (mul_lt_cancel (B ^ i)); [auto|]. pf (mul_le_l (mpval op1) (mpval op0 mod B ^ i) (B ^ i)). pf (mul_lt_l (mpval n) M (B ^ i)).
      assert (0 <= B * R * F) by (apply Z.mul_nonneg_nonneg; [apply Z.mul_nonneg_nonneg|]; lia). lia. }
    apply wp_mg_mul_step_gen with (p := p); auto; [rewrite (shape_nlimbs _ _ S1); lia|apply L1; lia|lia|].
    intros t2 cy2 sh2 m k O2 S2 Hc2 Hs2 Hm Hk HK HE2. rewrite EBR in HK, HE2. split; [auto|]. split; [eapply shape_trans; eauto|]. split; [auto|]. split; [auto|].
    split.
    { replace (Z.to_nat (i + 1)) with (S (Z.to_nat i)) by lia. pose proof (vlimb_isl (mpval op0) i) as VL. unfold isl in VL.
      pf (acc_rng t1 p sh1 cy1) as AN. rewrite <- ER in AN.
      apply mg_sum_step with (m := m) (k := k); auto; rewrite Z2Nat.id by auto; fold (vlimb (mpval op0) i); fold R; rewrite <- HV; [|exact HE2].
      pf (mul_le_l (mpval op1) (vlimb (mpval op0) i) (B - 1)) as ML. pf (Z.mul_nonneg_nonneg (vlimb (mpval op0) i) (mpval op1)) as MN.
      pf (mul_le_l B (mpval op1) R) as MO. pf (mul_le_l R 1 B) as MB1.
      destruct Hk as [->| ->]; [split; [lia|]; rewrite Z.mul_0_l, Z.sub_0_r; apply HK; auto|].
      destruct (Z.lt_ge_cases (acc t1 p sh1 cy1 + vlimb (mpval op0) i * mpval op1) (B * R)) as [LT|GE]; [apply HK in LT; lia|]. lia. }
    exists (M + B ^ i * m), (F + B ^ i * k). split; [apply M_bound; auto|]. rewrite (vmod_S _ i) by auto. rewrite (Bpow_S i) by auto.
    split; [destruct Hk as [->| ->]; lia|]. split; [destruct Hk as [->| ->]; lia|]. split; [|split].
    - split.
      + intros EF. assert (K0'' : k = 0 /\ F = 0) by (destruct Hk as [->| ->]; lia). destruct K0'' as [-> ->].
        destruct FK as [FK _]. specialize (FK eq_refl). intros j M' s Hj HM' HS'. destruct (Z.eq_dec j i) as [->|NE]; [|apply (FK j M' s); auto; lia].
        assert (s = acc t1 p sh1 cy1). { apply (cancel_odd i (mpval n) M' M (mpval op0 mod B ^ i * mpval op1)); auto; lia. }
        subst s. fold (vlimb (mpval op0) i). fold R. apply HK. auto.
      + intros KP. assert (F = 0) by (apply FK; intros j M' s Hj; apply KP; lia). subst F.
        assert (k = 0). { apply HK. apply (KP i M); [lia|auto|lia]. } subst k. lia.
    - intros FP. destruct (Z.eq_dec F 0) as [->|NZ]; [|apply FL; lia].
      assert (k <> 0) by (intros ->; lia). destruct (Z.lt_ge_cases (acc t1 p sh1 cy1 + vlimb (mpval op0) i * mpval op1) (B * R)) as [LT|GE].
      { apply HK in LT. lia. }
      unfold isl in Hv. pf (mul_le_l (mpval op1) (vlimb (mpval op0) i) (B - 1)). lia.
    - replace (B * B ^ i * acc t2 p sh2 cy2 + B * R * (F + B ^ i * k)) with (B ^ i * (B * acc t2 p sh2 cy2 + k * (B * R)) + B * R * F) by ring.
      rewrite HE2. set (A1 := acc t1 p sh1 cy1) in *. clear - HE. lia. }
  intros ((t1, cy1), sh1) HI. unfold ct_montgomery_radix_shift_mp_nlimbs. change (ct_mp_nlimbs (mp_len n)) with (nlimbs n).
  rewrite (Z.mod_small (mpval op0) (B ^ nlimbs op0)) in HI by (apply mpval_bound_B; auto).
  apply wx_bind. apply wp_for with (I := fun i => xinv r0 p (mpval op0) (mpval op1) (mpval n) R i (kept op0 op1 n (nlimbs op0)) (mg_sum (mpval n) R g (mpval op0) (mpval op1) (Z.to_nat i))); [lia|exact HI| |].
  { clear HI t1 cy1 sh1. intros i ((t1, cy1), sh1) Hi (O1 & S1 & Hc1 & Hs1 & HV & M & F & HM & F0 & FB & FK & FL & HE). pose proof (nlimbs_nonneg op0). assert (I0 : 0 <= i) by lia. pf (Bpow_pos i) as PI.
    apply wp_mg_redc_step with (p := p); auto; [rewrite (shape_nlimbs _ _ S1); lia|].
    intros t2 cy2 sh2 m O2 S2 Hc2 Hs2 Hm HE2. split; [auto|]. split; [eapply shape_trans; eauto|]. split; [auto|]. split; [auto|].
    split.
    { replace (Z.to_nat (i + 1)) with (S (Z.to_nat i)) by lia.
      pf (acc_rng t1 p sh1 cy1) as AN. rewrite <- ER in AN.
      assert (AB : acc t1 p sh1 cy1 < B * R).
      { pf (mul_le_l R 2 B). lia. }
      assert (D0 : (mpval op0 / B ^ i) mod B = 0).
      { pose proof (mpval_bound_B op0 H0) as BB. assert (B ^ nlimbs op0 <= B ^ i) by (apply Z.pow_le_mono_r; lia). rewrite Z.div_small by lia. apply Z.mod_0_l. lia. }
      apply mg_sum_step with (m := m) (k := 0); auto; rewrite Z2Nat.id by auto; fold R; rewrite D0, <- HV; lia. }
    exists (M + B ^ i * m), F. split; [apply M_bound; auto|]. split; [auto|]. rewrite (Bpow_S i) by auto. split; [pf (mul_le_l (B ^ i) 1 B); lia|]. split; [auto|]. split; [auto|].
    replace (B * B ^ i * acc t2 p sh2 cy2) with (B ^ i * (B * acc t2 p sh2 cy2)) by ring. rewrite HE2. lia. }
  clear HI t1 cy1 sh1. intros ((t1, cy1), sh1) (O1 & S1 & Hc1 & Hs1 & HV & M & F & HM & F0 & FB & FK & FL & HE).
  fold (mg_radix n) in HM, HE, FB. fold R in HM, HE, FB.
  apply wx_bind, wp_dassert; [rewrite (shape_nlimbs _ _ S1); apply Z.eqb_eq; lia|].
  rewrite Np. apply (HQ rf r0 t1 cy1 sh1 M F p); auto; try lia.
  apply (mul_lt_cancel R); [auto|]. pf (mul_le_l (mpval op1) (mpval op0) R). pf (mul_lt_l (mpval n) M R).
  assert (0 <= B * R * F) by (apply Z.mul_nonneg_nonneg; [apply Z.mul_nonneg_nonneg|]; lia). lia.
Qed.

(** The final subtraction if the sum exceeds the bytes of the modulus, but not those of the result. *)
Lemma wx_finish_wide : forall t n p sh cy A, mp_ok t -> mp_ok n -> nlimbs t = p + 1 -> nlimbs n = p + 1 -> 0 <= p -> 0 < mpval n ->
  mp_len n < mp_len t -> isl sh -> (cy = 0 \/ cy = 1) -> A = acc t p sh cy -> A < 2 * mpval n -> 256 ^ mp_len n <= A ->
  wx (debug c) (mg_finish t n n (p + 1) cy sh) (fun t' => debug c = false /\ exists v, becomes t t' v /\ mpval n <= v).
Proof.
  intros t n p sh cy A Ht Hn Nt Nn Hp HN HL Hsh Hcy HA HA2 HF.
  assert (Nn0 : 0 < nlimbs n) by lia. assert (Nn1 : nlimbs n - 1 = p) by lia.
  unfold mg_finish. pf (Bpow_pos p) as PP. pose proof B_gt as BG. pose proof LB_pos as LP.
  assert (LTn : B ^ p * lim n p = 256 ^ mp_len n) by (replace p with (nlimbs n - 1) by lia; apply lim_total; lia).
  assert (LTt : B ^ p * lim t p = 256 ^ mp_len t) by (replace p with (nlimbs t - 1) by lia; apply lim_total; lia).
  pf (Z.mod_pos_bound (mpval t) (B ^ p)) as VB. pose proof (Bpow_S p Hp) as BS.
  pf (lim_pos n p) as LPn. pf (lim_pos t p) as LPt. unfold isl in Hsh.
  pose proof (mpval_bound n Hn) as NB.
  assert (W256 : 256 * 256 ^ mp_len n <= 256 ^ mp_len t).
  { pose proof (mp_len_nonneg n). rewrite <- Z.pow_succ_r by lia. apply Z.pow_le_mono_r; lia. }
  unfold acc in HA. set (V0 := mpval t mod B ^ p) in *. set (ln := lim n p) in *. set (lt := lim t p) in *.
  assert (L256 : 256 * ln <= lt). { apply (Z.mul_le_mono_pos_l _ _ (B ^ p)); lia. }
  assert (LT0 : lt <= B) by (unfold lt, lim; rewrite B_256; apply Z.pow_le_mono_r; lia).
  assert (HA' : A = B ^ p * (sh + B * cy) + V0) by (rewrite HA, BS; ring).
  assert (S1 : sh + B * cy < 2 * ln). { apply (mul_lt_cancel (B ^ p)); lia. }
  assert (S2 : ln <= sh + B * cy). { assert (B ^ p * ln < B ^ p * (sh + B * cy + 1)) as X by lia. apply mul_lt_cancel in X; lia. }
  assert (cy = 0) by (destruct Hcy; lia). subst cy.
  assert (EL : Z.land sh (lnot (ln - 1)) = sh - sh mod ln).
  { unfold ln. rewrite <- Nn1. apply land_lnot_lim'; auto. }
  apply wx_bind, wp_partial_high_mask; [lia|]. replace (nlimbs n - 1) with p by lia. fold ln.
  assert (LS : 0 < partial_high_shift n < W /\ ln = 2 ^ partial_high_shift n).
  { destruct (lim_last_shift n Nn0) as [[E1 E2]|[E1 E2]]; rewrite Nn1 in E2; fold ln in E2; [lia|auto]. }
  destruct LS as [LS1 LS2].
  apply wx_bind, wp_assert; [apply orb_true_r|].
  apply wx_bind, wp_lshr; [lia|]. rewrite <- LS2.
  rewrite EL.
  rewrite Z.lor_0_l. rewrite sub_mod_eq by lia. rewrite (Z.mul_comm ln), Z.div_mul by lia.
  replace (sh / ln) with (b2z true) by (cbn [b2z]; symmetry; symmetry; apply Z.div_unique with (sh - ln); lia).
  apply wx_bind, wp_usub; [lia|].
  replace (Z.land sh (ln - 1)) with (sh - ln).
  2:{ unfold ln at 2. replace p with (nlimbs n - 1) by lia. rewrite land_lim by lia. replace (nlimbs n - 1) with p by lia. fold ln. apply Z.mod_unique with 1; lia. }
  replace (p + 1 - 1) with p by lia.
  apply wx_bind. eapply wp_up_store with (V0 := mpval t) (L := V0); [apply upinv_split; auto|lia|fold lt; lia|].
  intros t1 HU. pf (upinv_done t (p + 1) _ t1 Ht HU) as HB. destruct HB as (O1 & S1' & E1).
  apply wx_bind, wp_lc_new with (b := true); [auto|].
  apply wx_bind, wp_geq_mp; auto. rewrite lc_or_chc. cbn [orb]. apply wx_bind, wp_sub_cond; [auto|auto|rewrite (shape_nlimbs _ _ S1'); lia|intros _; rewrite (shape_len _ _ S1'); lia|].
  intros t2 k (Hk & V & (O2 & S2' & EV) & E). pose proof (mpval_bound t2 O2) as BT'. rewrite (shape_len _ _ S2'), (shape_len _ _ S1') in BT'. rewrite EV in BT'.
  rewrite (shape_len _ _ S1') in E. cbn [b2z] in E.
  assert (VN : mpval n <= V). { destruct Hk as [->| ->]; [exfalso|]; lia. }
  pose proof (shape_trans _ _ _ S1' S2') as S3.
  apply wx_bindx. unfold dassert_not_geq, dassert_m. destruct (debug c) eqn:D.
  - apply wx_bind, wp_bind, wp_geq_mp; auto. apply wp_ret. rewrite EV. replace (mpval n <=? V) with true by (symmetry; apply Z.leb_le; lia).
    rewrite lc_unwrap_chc. apply pan_wx. reflexivity.
  - apply wx_ret, wx_ret. split; [auto|]. exists V. split; [split; [auto|split; [auto|auto]]|auto].
Qed.

(** The same if it exceeds the bytes of the result, but not those of the modulus. *)
Lemma wx_finish_short : forall t n p sh cy A, mp_ok t -> mp_ok n -> nlimbs t = p + 1 -> nlimbs n = p + 1 -> 0 <= p -> 0 < mpval n ->
  mp_len t < mp_len n -> kind_of n = KNE -> isl sh -> (cy = 0 \/ cy = 1) -> A = acc t p sh cy -> mpval n < 256 ^ mp_len t -> A < 2 * mpval n -> 256 ^ mp_len t <= A ->
  wx (debug c) (mg_finish t n n (p + 1) cy sh) (fun t' => debug c = false /\ becomes t t' (A - 256 ^ mp_len t)).
Proof.
  intros t n p sh cy A Ht Hn Nt Nn Hp HN HL HK Hsh Hcy HA HNt HA2 HF.
  assert (Nn0 : 0 < nlimbs n) by lia. assert (Nn1 : nlimbs n - 1 = p) by lia.
  unfold mg_finish. pf (Bpow_pos p) as PP. pose proof B_gt as BG. pose proof LB_pos as LP.
  assert (LTn : B ^ p * lim n p = 256 ^ mp_len n) by (replace p with (nlimbs n - 1) by lia; apply lim_total; lia).
  assert (LTt : B ^ p * lim t p = 256 ^ mp_len t) by (replace p with (nlimbs t - 1) by lia; apply lim_total; lia).
  pf (Z.mod_pos_bound (mpval t) (B ^ p)) as VB. pose proof (Bpow_S p Hp) as BS.
  pf (lim_pos n p) as LPn. pf (lim_pos t p) as LPt. unfold isl in Hsh.
  assert (W256 : 256 * 256 ^ mp_len t <= 256 ^ mp_len n).
  { pose proof (mp_len_nonneg t). rewrite <- Z.pow_succ_r by lia. apply Z.pow_le_mono_r; lia. }
  unfold acc in HA. set (V0 := mpval t mod B ^ p) in *. set (ln := lim n p) in *. set (lt := lim t p) in *.
  assert (L256 : 256 * lt <= ln). { apply (Z.mul_le_mono_pos_l _ _ (B ^ p)); lia. }
  assert (LNB : ln = B).
  { unfold ln, lim. rewrite B_256. f_equal. apply Z.min_l. destruct n as [l|l|l]; try discriminate. rewrite nlimbs_NE in Nn. cbn [mp_len]. rewrite Nn. lia. }
  assert (HA' : A = B ^ p * (sh + B * cy) + V0) by (rewrite HA, BS; ring).
  assert (S1 : sh + B * cy < 2 * lt). { apply (mul_lt_cancel (B ^ p)); lia. }
  assert (S2 : lt <= sh + B * cy). { assert (B ^ p * lt < B ^ p * (sh + B * cy + 1)) as X by lia. apply mul_lt_cancel in X; lia. }
  assert (cy = 0) by (destruct Hcy; lia). subst cy.
  assert (EL : Z.land sh (lnot (ln - 1)) = sh - sh mod ln).
  { unfold ln. rewrite <- Nn1. apply land_lnot_lim'; auto. }
  apply wx_bind, wp_partial_high_mask; [lia|]. replace (nlimbs n - 1) with p by lia. fold ln.
  assert (LS : partial_high_shift n = 0).
  { destruct (lim_last_shift n Nn0) as [[E1 E2]|[E1 E2]]; auto. rewrite Nn1 in E2; fold ln in E2. exfalso.
    assert (2 ^ partial_high_shift n < 2 ^ W) by (apply Z.pow_lt_mono_r; lia). rewrite <- B_eq in H. lia. }
  rewrite LS.
  apply wx_bind, wp_assert; [reflexivity|]. pose proof W_pos as WP.
  apply wx_bind, wp_lshr; [lia|]. change (2 ^ 0) with 1. rewrite Z.div_1_r.
  rewrite EL.
  rewrite LNB. rewrite (Z.mod_small sh B), Z.sub_diag, Z.lor_0_r by lia.
  apply wx_bind, wp_usub; [lia|].
  replace (Z.land sh (B - 1)) with sh.
  2:{ rewrite <- LNB. unfold ln. replace p with (nlimbs n - 1) by lia. rewrite land_lim by lia. replace (nlimbs n - 1) with p by lia. fold ln. rewrite LNB, Z.mod_small; lia. }
  replace (p + 1 - 1) with p by lia.
  destruct (debug c) eqn:D.
  { apply wx_bindx, pan_wx, store_big_pan; auto; [lia|fold lt; lia]. }
  apply wx_bind, wp_store_cut; auto; [lia|]. fold lt.
  replace (sh mod lt) with (sh - lt) by (apply Z.mod_unique with 1; lia).
  intros t1 SP. assert (HU : upinv t (mpval t) (p + 1) (V0 + (sh - lt) * B ^ p) t1) by (eapply upinv_step; [apply upinv_split; auto|lia|unfold isl; lia|exact SP]).
  pf (upinv_done t (p + 1) _ t1 Ht HU) as HB. destruct HB as (O1 & S1' & E1).
  assert (E1' : mpval t1 = A - 256 ^ mp_len t) by lia.
  apply wx_bind, wp_lc_new with (b := false); [auto|].
  apply wx_bind, wp_geq_mp; auto. rewrite lc_or_chc. cbn [orb]. replace (mpval n <=? mpval t1) with false by (symmetry; apply Z.leb_gt; lia).
  apply wx_bind, wp_sub_cond; [auto|auto|rewrite (shape_nlimbs _ _ S1'); lia|discriminate|].
  intros t2 k (Hk & V & (O2 & S2' & EV) & E). pose proof (mpval_bound t2 O2) as BT'. rewrite (shape_len _ _ S2') in BT'. rewrite EV in BT'.
  pose proof (mpval_bound t1 O1) as BT1. cbn [b2z] in E.
  assert (VN : V = A - 256 ^ mp_len t) by (destruct Hk as [->| ->]; lia).
  pose proof (shape_trans _ _ _ S1' S2') as S3.
  unfold dassert_not_geq, dassert_m. rewrite D. apply wx_bind, wp_ret, wx_ret. split; [auto|]. split; [auto|]. split; [auto|]. lia.
Qed.

Lemma same_bytes_len : forall r n, mp_ok n -> len_compat n (mp_len r) -> (same_bytes r n <-> shrunk_len r (mp_len n) = mp_len n).
Proof.
  intros r n Hn HC. destruct (shrunk_n r n Hn HC) as (_ & SL & SE). split; [auto|]. intros E. pose proof LB_pos as LP. split; [lia|].
  intros K. apply unal_KNE in K. unfold shrunk_len in E. rewrite K in E. pose proof (mp_len_nonneg r). pose proof (mp_len_nonneg n).
  rewrite ct_align_spec in E by lia. rewrite <- E. apply Z.mod_mul. lia.
Qed.

Lemma becomes_unshrink : forall r rf r0 t1 t2 v, mp_ok rf -> same_shape r rf -> mpval rf = 0 -> kind_of r0 = kind_of r -> mp_len r0 <= mp_len r ->
  same_shape r0 t1 -> becomes t1 t2 v -> becomes r (mp_unshrink rf t2) v.
Proof.
  intros r rf r0 t1 t2 v Of Sf Ef K0 L0 S1 (O2 & S2 & E2). pose proof (shape_trans _ _ _ S1 S2) as S3.
  destruct (unshrink_spec rf t2) as (O4 & S4 & E4); auto.
  { destruct S3 as [-> _]. rewrite K0. symmetry. apply Sf. }
  { rewrite (shape_len _ _ S3), (shape_len _ _ Sf). lia. }
  split; [auto|]. split; [eapply shape_trans; eauto|]. rewrite E4, E2, Ef, Z.div_0_l by (pf (p256_pos (mp_len t2)); pose proof (mp_len_nonneg t2); lia). lia.
Qed.

(** A sum is too long for the buffer only if it is not one as long as the modulus. *)
Lemma lost_same_bytes : forall n l p, mp_ok n -> nlimbs n = p + 1 -> ct_mp_nlimbs l = p + 1 -> 0 <= p -> 0 <= l -> mpval n < 256 ^ l ->
  B * mg_radix n < B * mpval n + mpval n -> l = mp_len n.
Proof.
  intros n l p Hn Np NL Hp Hl NV HC. pose proof LB_pos as LP. pose proof B_gt as BG. pose proof (mpval_bound n Hn) as NB.
  pose proof (ct_mp_nlimbs_spec l Hl) as S1. rewrite NL in S1. pose proof (nlimbs_spec n) as S2. rewrite Np in S2. pose proof (mp_len_nonneg n) as Ln.
  assert (X : forall k, 0 <= k -> k < (p + 1) * LB -> mpval n < 256 ^ k -> False).
  { intros k K0 K1 K2. assert (E : mg_radix n = 256 ^ ((p + 1) * LB)) by (unfold mg_radix; rewrite Np, B_256, <- Z.pow_mul_r by lia; f_equal; lia).
    assert (256 * 256 ^ k <= mg_radix n) by (rewrite E, <- Z.pow_succ_r by lia; apply Z.pow_le_mono_r; lia).
    pf (p256_pos k) as PK. pf (mul_le_l B (256 * 256 ^ k) (mg_radix n)) as M1. pf (mul_le_l B (mpval n) (256 ^ k)) as M2.
    pf (mul_le_l (256 ^ k) 1 B) as M3. clear - HC M1 M2 M3 K2 PK. lia. }
  destruct (Z.lt_ge_cases l ((p + 1) * LB)); [exfalso; apply (X l); lia|]. destruct (Z.lt_ge_cases (mp_len n) ((p + 1) * LB)); [exfalso; apply (X (mp_len n)); [auto|auto|apply NB]|]. lia.
Qed.
End Facts.

Lemma mul_exact : forall (c : cfg) r op0 op1 n g, mp_ok r -> mp_ok op0 -> mp_ok op1 -> mp_ok n ->
  Z.odd (mpval n) = true -> neg_inv n g -> len_compat n (mp_len r) -> len_compat op0 (mp_len n) -> len_compat op1 (mp_len n) ->
  mpval op0 < mpval n -> mpval op1 < mpval n -> (0 < mp_len op1 \/ mp_len op0 = 0 \/ (debug c = false /\ kind_of op1 <> KNE)) ->
  let right := fun '(res, r') => res = Ok tt /\ exists v, becomes r r' v /\ mg_reduced n (mpval op0 * mpval op1) v in
  let wrong := fun '(res, r') => res = Ok tt /\ exists v, becomes r r' v /\ ~ mg_reduced n (mpval op0 * mpval op1) v in
  let call := ct_montgomery_mul_mod_mp_mp r op0 op1 n g in
  (mg_no_carry_lost op0 op1 n -> mg_sum_fits r op0 op1 n -> yields call right) /\
  (~ mg_no_carry_lost op0 op1 n -> yields call wrong) /\
  (~ mg_sum_fits r op0 op1 n -> if debug c then panics call else yields call wrong).
Proof.
  intros c r op0 op1 n g Hr H0 H1 Hn HO HG C C0 C1 V0 V1 L1 right wrong call.
  destruct (odd_nlimbs n Hn HO) as [N0 NP]. pose proof (mpval_nonneg op0 H0) as P0. pose proof (mpval_nonneg op1 H1) as P1.
  assert (L1' : 0 < nlimbs op0 -> load0_ok op1).
  { intros X. pose proof (nlimbs_spec op0) as X0. pose proof (nlimbs_spec op1) as X1. pose proof (nlimbs_nonneg op1) as X2. pose proof (mp_len_nonneg op1) as X3. pose proof LB_pos as LP. unfold load0_ok.
    destruct (Z.eq_dec (mp_len op1) 0) as [E|E].
    - right. destruct L1 as [L1|[L1|[L1 L2]]]; [lia| |auto]. exfalso. unfold nlimbs in X. rewrite L1, (ct_mp_nlimbs_unique 0 0) in X by lia. lia.
    - left. destruct (Z.eq_dec (nlimbs op1) 0) as [E'|E']; [rewrite E' in X1; lia|lia]. }
  pose proof (same_bytes_len r n Hn C) as SB. destruct (shrunk_n r n Hn C) as (_ & SL & _).
  assert (RP : 0 < mg_radix n) by (apply Bpow_pos; lia).
  assert (FIN : forall e (Q : Monad.result unit mg_err * mp -> Prop),
    (forall r0 t1 t2 rf A M F, mp_len r0 = shrunk_len r (mp_len n) -> mp_ok t1 -> same_shape r0 t1 -> becomes t1 t2 (A mod mpval n) -> becomes r (mp_unshrink rf t2) (A mod mpval n) ->
       0 <= M < mg_radix n -> 0 <= F -> F * (B - 1) < mg_radix n -> (F = 0 <-> mg_no_carry_lost op0 op1 n) -> (0 < F -> B * mg_radix n < B * mpval op1 + mpval n) ->
       mg_radix n * A + B * mg_radix n * F = mpval op0 * mpval op1 + M * mpval n ->
       (F = 0 -> mg_sum_fits r op0 op1 n) -> (0 < F -> same_bytes r n) -> Q (Ok tt, mp_unshrink rf t2)) ->
    (mg_no_carry_lost op0 op1 n -> ~ mg_sum_fits r op0 op1 n -> e = debug c) ->
    (debug c = false -> e = debug c -> forall r' v, ~ mg_sum_fits r op0 op1 n -> becomes r r' v -> ~ mg_reduced n (mpval op0 * mpval op1) v -> Q (Ok tt, r')) ->
    wx e call Q).
  { intros e Q QF HE QB. apply wx_mg_mul; auto.
    intros rf r0 t1 cy sh M F p Of Sf Ef O0 K0 L0 NV0 Nr Np Hp O1 S1 Hcy Hsh HA HM F0 FB FK FL EQ _.
    set (A := acc t1 p sh cy) in *.
    assert (FS : 0 < F -> same_bytes r n).
    { intros FP. apply SB. rewrite <- L0. apply (lost_same_bytes n (mp_len r0) p); auto; [fold (nlimbs r0); lia|apply mp_len_nonneg|].
      specialize (FL FP). pose proof B_gt as BG. pf (mul_le_l B (mpval op1) (mpval n)). lia. }
    assert (FU : F = 0 -> forall M' s, 0 <= M' < mg_radix n -> mg_radix n * s = mpval op0 * mpval op1 + M' * mpval n -> s = A).
    { intros -> M' s HM' Hs. apply (cancel_odd (nlimbs n) (mpval n) M' M (mpval op0 * mpval op1)); auto; try lia; fold (mg_radix n); lia. }
    assert (N1 : nlimbs t1 = p + 1) by (rewrite (shape_nlimbs _ _ S1); lia).
    assert (GOOD : mp_len n = mp_len r0 \/ (A < 256 ^ mp_len n /\ A < 256 ^ mp_len r0) ->
      (F = 0 -> mg_sum_fits r op0 op1 n) ->
      wx e (let! result := mg_finish t1 n n (p + 1) cy sh in ret (Ok tt, mp_unshrink rf result)) Q).
    { intros HG1 HG2. apply wx_bind, wp_mg_finish with (A := A); auto; try lia; [rewrite (shape_len _ _ S1); auto|rewrite (shape_len _ _ S1); auto|].
      intros t2 HB2. apply wx_ret. apply (QF r0 t1 t2 rf A M F); auto. apply (becomes_unshrink r rf r0 t1); auto. lia. }
    destruct (Z.eq_dec (mp_len n) (mp_len r0)) as [EL|NL].
    { apply GOOD; [auto|]. intros _. left. apply SB. lia. }
    assert (F = 0) by (destruct (Z.eq_dec F 0); auto; exfalso; apply NL; rewrite L0; symmetry; apply SB, FS; lia). subst F.
    destruct (Z.lt_ge_cases A (256 ^ Z.min (mp_len r) (mp_len n))) as [AL|AG].
    { apply GOOD.
      - right. split; (eapply Z.lt_le_trans; [exact AL|]; apply Z.pow_le_mono_r; lia).
      - intros _. right. intros M' s HM' Hs. rewrite (FU eq_refl M' s); auto. }
    assert (NF : ~ mg_sum_fits r op0 op1 n).
    { intros [X|X]; [apply NL; rewrite L0; symmetry; apply SB, X|]. specialize (X M A HM). lia. }
    assert (e = debug c) by (apply HE; [apply FK|]; auto). subst e.
    assert (AR : ~ A < 256 ^ mp_len r0 -> mp_len r0 = Z.min (mp_len r) (mp_len n) -> mp_len r0 < mp_len n).
    { lia. }
    destruct (supports_unaligned r) eqn:U.
    - (* the result is too short *)
      assert (E0 : mp_len r0 = Z.min (mp_len n) (mp_len r)) by (rewrite L0; unfold shrunk_len; rewrite U; auto).
      assert (KN : kind_of n = KNE). { destruct C as [C|[C _]]; [lia|auto]. }
      assert (AG' : 256 ^ mp_len r0 <= A) by (rewrite E0, Z.min_comm; auto).
      apply wx_bindx. eapply wx_mono; [apply (wx_finish_short t1 n p sh cy A); auto; rewrite ?(shape_len _ _ S1); try lia; auto|].
      cbn beta. intros t2 [D HB2]. apply wx_ret. apply (QB D eq_refl _ (A - 256 ^ mp_len t1)); auto.
      + apply (becomes_unshrink r rf r0 t1); auto. lia.
      + intros [_ W]. rewrite (shape_len _ _ S1) in W. apply mod_eq_div in W; [|auto].
        assert (DV : (mpval n | 256 ^ mp_len r0 * B ^ nlimbs n)).
        { destruct W as [q W]. fold (mg_radix n). exists (M - q). lia. }
        apply Gauss in DV.
        2:{ apply Zgcd_1_rel_prime. change 256 with (2 ^ 8). pose proof (mp_len_nonneg r0). rewrite <- Z.pow_mul_r by lia.
            apply Zgcd_1_rel_prime. apply Zpow_facts.rel_prime_Zpower_r; [lia|]. apply odd_coprime2; auto. }
        assert (D1 : (mpval n | 1)).
        { apply (Gauss _ (B ^ nlimbs n)); [rewrite Z.mul_1_r; auto|]. apply Zgcd_1_rel_prime, Bpow_coprime; auto. lia. }
        apply Z.divide_pos_le in D1; [|lia]. pose proof (mp_len_nonneg r0). pf (p256_pos (mp_len r0)). lia.
    - assert (KR : kind_of r = KNE) by (apply unal_KNE; auto).
      assert (LN : mp_len n <= mp_len r).
      { destruct C as [C|(KN & C & _)]; [auto|]. destruct r as [l|l|l]; try discriminate. destruct n as [ln|ln|ln]; try discriminate.
        cbn [mp_len] in *. pose proof LB_pos as LP. assert (zlen ln < zlen l + 1); [|apply Z.mul_le_mono_nonneg_r; lia].
        apply (Z.mul_lt_mono_pos_r LB); lia. }
      apply wx_bindx. eapply wx_mono; [apply (wx_finish_wide t1 n p sh cy A); auto; rewrite ?(shape_len _ _ S1); try lia; auto|].
      { rewrite Z.min_r in AG by lia. auto. }
      cbn beta. intros t2 [D (v & HB2 & HV)]. apply wx_ret. apply (QB D eq_refl _ v); auto.
      + apply (becomes_unshrink r rf r0 t1); auto. lia.
      + intros [W _]. lia. }
  split; [|split].
  - intros NC SF. apply wp_yields, wp_wx. apply FIN; [|intros; contradiction|intros; contradiction].
    intros r0 t1 t2 rf A M F _ _ _ _ HB HM F0 FB FK FL EQ _ _. apply FK in NC. subst F. split; [auto|]. eexists. split; [exact HB|]. apply mg_reduced_mod with M; auto. lia.
  - intros NC. apply wp_yields, wp_wx. apply FIN; [|intros; contradiction|].
    + intros r0 t1 t2 rf A M F _ _ _ _ HB HM F0 FB FK FL EQ _ _. split; [auto|]. eexists. split; [exact HB|].
      assert (FP : 0 < F) by (destruct (Z.eq_dec F 0) as [E|E]; [apply FK in E; contradiction|lia]).
      intros [_ W]. rewrite Z.mul_mod_idemp_l in W by lia.
      apply (lost_wrong (mpval n) (mg_radix n) (mpval op1) (nlimbs n) F A (mpval op0 * mpval op1) M); auto; lia.
    + intros D _ r' v _ HB HW. split; [auto|]. exists v. auto.
  - intros NF.
    assert (X : wx (debug c) call (fun a => debug c = false /\ wrong a)).
    { apply FIN; [|auto|].
      - intros r0 t1 t2 rf A M F _ _ _ _ HB HM F0 FB FK FL EQ F1 F2. exfalso. apply NF. destruct (Z.eq_dec F 0) as [E|E]; [auto|left; apply F2; lia].
      - intros D _ r' v _ HB HW. split; [auto|]. split; [auto|]. exists v. auto. }
    destruct (debug c) eqn:D.
    + apply wx_pan. eapply wx_mono; [exact X|]. intros a [Y _]. congruence.
    + apply wp_yields, wp_wx. eapply wx_mono; [exact X|]. intros a [_ Y]. exact Y.
Qed.

(** Moduli not too close to the radix lose no carry. *)
Lemma no_carry_lost : forall (c : cfg) op0 op1 n, mp_ok op0 -> mp_ok op1 -> 0 < mpval n -> B * mpval op1 + mpval n <= B * mg_radix n -> mg_no_carry_lost op0 op1 n.
Proof.
  intros c op0 op1 n H0 H1 HN HB i M s Hi HM HS. pf (Bpow_pos i) as PI. pose proof (mpval_nonneg op1 H1) as P1. pose proof B_gt as BG.
  pf (Z.mod_pos_bound (mpval op0) (B ^ i)) as MB. assert (I0 : 0 <= i) by lia.
  pf (acc_bound i s (mpval op0 mod B ^ i) (mpval op1) (mpval n) M I0 HS MB HM P1 HN) as AB.
  pf (Z.mod_pos_bound (mpval op0 / B ^ i) B) as DB. pf (mul_le_l (mpval op1) ((mpval op0 / B ^ i) mod B) (B - 1)) as OV. lia.
Qed.

(** An empty second factor. *)
Lemma mul_empty : forall (c : cfg) r op0 op1 n g, mp_ok r -> mp_ok op0 -> mp_ok op1 -> mp_ok n ->
  Z.odd (mpval n) = true -> len_compat n (mp_len r) -> len_compat op0 (mp_len n) ->
  0 < mp_len op0 -> mp_len op1 = 0 -> (debug c = true \/ kind_of op1 = KNE) ->
  panics (ct_montgomery_mul_mod_mp_mp r op0 op1 n g).
Proof.
  intros c r op0 op1 n g Hr H0 H1 Hn HO C C0 L0 L1 HD. destruct (odd_nlimbs n Hn HO) as [N0 NP].
  pose proof (mp_len_nonneg r) as Lr. pose proof (mp_len_nonneg n) as Ln. pose proof LB_pos as LP.
  assert (N1 : nlimbs op1 = 0) by (unfold nlimbs; rewrite L1; apply ct_mp_nlimbs_unique; lia).
  assert (N0' : 0 < nlimbs op0) by (pose proof (nlimbs_nonneg op0); pose proof (nlimbs_spec op0) as S0; destruct (Z.eq_dec (nlimbs op0) 0) as [E|E]; [rewrite E in S0|]; lia).
  assert (STEP : forall n0 st, panics (mg_mul_step op0 op1 n n0 g 0 st)).
  { intros n0 [[t cy] sh]. unfold mg_mul_step. apply pan_any. intros _ _. apply pan_any. intros a _. apply pan_any. intros rv _.
    destruct (kind_of op1) eqn:K.
    - destruct HD as [HD|HD]; [|discriminate]. apply pan_any. intros b _. apply pan_any. intros [q0 s0] _. apply pan_any. intros k _. apply pan_any. intros [[t1 k1] q1] _.
      apply pan_l, pan_dassert; auto. rewrite N1. reflexivity.
    - destruct HD as [HD|HD]; [|discriminate]. apply pan_any. intros b _. apply pan_any. intros [q0 s0] _. apply pan_any. intros k _. apply pan_any. intros [[t1 k1] q1] _.
      apply pan_l, pan_dassert; auto. rewrite N1. reflexivity.
    - apply pan_l. unfold load_l. apply pan_any. intros _ _. destruct op1 as [l|l|l]; try discriminate. apply pan_znth.
      rewrite nlimbs_NE in N1. lia. }
  unfold ct_montgomery_mul_mod_mp_mp. apply pan_mif; intros E. { rewrite empty_nlimbs in E. apply Z.eqb_eq in E. lia. } clear E.
  apply pan_wp, wp_load; [auto|lia|]. rewrite limb_vlimb. apply pan_wp. rewrite odd_land by apply vlimb_isl. rewrite vlimb0_odd, HO.
  apply wp_eq_l; [apply isl_1|apply isl_0|]. change (b2z true =? 0) with false. rewrite lc_unwrap_chc.
  apply pan_mif; intros E; [discriminate|]. clear E.
  apply pan_wp, wp_compat; [auto|lia|auto|]. apply pan_mif; intros E; [discriminate|]. clear E.
  apply pan_any. intros _ _.
  apply pan_wp, wp_compat; [auto|lia|auto|].
  apply pan_wp. apply wp_mif; intros E; [discriminate|]. clear E.
  apply wp_bind, wp_compat; [auto|lia|left; lia|]. apply wp_ret. apply pan_mif; intros E; [discriminate|]. clear E.
  apply pan_any. intros _ _. apply pan_any. intros _ _. apply pan_any. intros _ _. apply pan_any. intros _ _. apply pan_any. intros _ _.
  apply pan_any. intros rf _. apply pan_any. intros r0 _. apply pan_any. intros _ _. apply pan_l, pan_for; [lia|]. apply STEP.
Qed.
