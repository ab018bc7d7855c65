(** Facts about mul_impl.rs (ModelMul.v): zero operands, multiplication by a limb, squaring. *)
From Coq Require Import ZArith List Bool Lia.
Require Import Verif.Spec Verif.Base Verif.Monad Verif.Wp Verif.ModelLimb Verif.LimbFacts Verif.LimbFacts2
  Verif.ModelBuf Verif.SpecBuf Verif.BufFacts Verif.BufFacts2 Verif.BufFacts3 Verif.UpFacts Verif.ModelCmp Verif.CmpFacts
  Verif.ModelAdd Verif.AddFacts Verif.AddFacts2 Verif.ModelMul Verif.SpecMul Verif.MulFacts Verif.Wx.
Import ListNotations.
Open Scope Z_scope.

Section Facts.
Context {c : cfg}.

Lemma wp_mul_cond_empty : forall a n b z (Q : mp -> Prop), mp_ok a -> mp_ok b -> 0 <= n <= mp_len a -> mp_len b = 0 ->
  (forall a', becomes a a' (if z : bool then 0 else mpval a) -> Q a') ->
  wp (ct_mul_trunc_cond_mp_mp a n b (chc z)) Q.
Proof.
  intros a n b z Q Ha Hb Hn Lb HQ. unfold ct_mul_trunc_cond_mp_mp. apply wp_bind, wp_dassert; [apply Z.leb_le; lia|].
  rewrite (empty_nlimbs b). pose proof B_gt as HB. pose proof LB_pos as HLB.
  assert (EN : nlimbs b = 0). { unfold nlimbs. rewrite Lb. apply ct_mp_nlimbs_unique; lia. }
  rewrite EN. apply wp_mif; intros E; [|discriminate]. clear E.
  rewrite lc_select_chc by (try apply isl_0; rewrite lnot_0; unfold isl; lia). rewrite lnot_0.
  assert (SEL : forall v, isl v -> Z.land v (lnot (if z then B - 1 else 0)) = if z then 0 else v).
  { intros v Hv. destruct z.
    - rewrite lnot_eq by (unfold isl; lia). replace (B - 1 - (B - 1)) with 0 by lia. apply Z.land_0_r.
    - rewrite lnot_0, <- ones_W. rewrite Z.land_ones by (pose proof W_pos; lia). rewrite <- B_eq. apply Z.mod_small. apply Hv. }
  eapply wp_for with (I := fun i b' => upinv a (mpval a) i ((if z then 0 else mpval a) mod B ^ i) b').
  - apply nlimbs_nonneg.
  - rewrite Z.pow_0_r, Z.mod_1_r. apply upinv_init; auto.
  - intros i b1 Hi U. apply wp_bind. eapply wp_up_load; eauto; [lia|lia|]. rewrite SEL by apply vlimb_isl.
    eapply wp_up_store; eauto.
    + pf (lim_pos a i). destruct z; [lia|]. rewrite <- limb_vlimb. apply limb_lim; auto.
    + intros b2 U2. rewrite vmod_S by lia. destruct z; [rewrite vlimb_0; exact U2|exact U2].
  - intros b1 U. apply HQ. eapply upinv_done in U; auto; [|lia].
    destruct z.
    + rewrite Z.mod_0_l in U; auto. pf (Bpow_pos (nlimbs a) (nlimbs_nonneg a)). lia.
    + rewrite Z.mod_small in U; auto. apply mpval_bound_B; auto.
Qed.

Lemma wp_mul_trunc : forall a n b (Q : mp -> Prop), mp_ok a -> mp_ok b -> 0 <= n <= mp_len a ->
  (forall a', becomes a a' ((mpval a mod 256 ^ n * mpval b) mod 256 ^ mp_len a) -> Q a') ->
  wp (ct_mul_trunc_mp_mp a n b) Q.
Proof.
  intros a n b Q Ha Hb Hn HQ. unfold ct_mul_trunc_mp_mp. apply wp_bind, (wp_lc_new true); auto. pose proof (mp_len_nonneg b) as L.
  destruct (Z.eq_dec (mp_len b) 0) as [E|E].
  - apply wp_mul_cond_empty; auto. intros a' H. apply HQ. pose proof (mpval_bound b Hb) as MB. rewrite E in MB. change (256 ^ 0) with 1 in MB.
    replace (mpval b) with 0 by lia. rewrite Z.mul_0_r, Z.mod_0_l; auto. pf (p256_pos (mp_len a) (mp_len_nonneg a)). lia.
  - apply wp_mul_cond; auto. lia.
Qed.

Lemma upinv_end' : forall a V0 i L b, mp_ok a -> upinv a V0 i L b -> 0 <= i -> 0 <= V0 < B ^ i -> becomes a b L /\ 0 <= L < 256 ^ mp_len a.
Proof.
  intros a V0 i L b Ha (O & S & HL & E) Hi HV. rewrite (Z.div_small V0) in E by auto.
  pose proof (mpval_bound b O) as MB. rewrite (shape_len a b S) in MB. split; [split; [auto|split; [auto|lia]]|lia].
Qed.

Lemma wp_mul_mp_l : forall a n x (Q : mp -> Prop), mp_ok a -> 0 <= n <= mp_len a -> isl x ->
  (forall a', becomes a a' ((mpval a mod 256 ^ n * x) mod 256 ^ mp_len a) -> Q a') ->
  wp (ct_mul_trunc_mp_l a n x) Q.
Proof.
  intros a n x Q Ha Hn Hx HQ. unfold ct_mul_trunc_mp_l. apply wp_bind, wp_dassert; [apply Z.leb_le; lia|].
  pose proof LB_pos as HLB. pose proof B_pos as HB. pose proof (mp_len_nonneg a) as La.
  destruct (Z.eq_dec n 0) as [Z0|Z0].
  { subst n. apply wp_bind, wp_partial_high_mask_any. intros m. apply wp_bind, wp_clear_above; [auto|lia|]. intros b' (O & S & V).
    apply wp_mif; intros E; [|discriminate]. apply wp_ret, HQ. split; [auto|]. split; [auto|].
    rewrite V. change (256 ^ 0) with 1. rewrite Z.mod_1_r. rewrite Z.mod_0_l; auto. pf (p256_pos (mp_len a) La). lia. }
  pose proof (nlimbs_spec a) as NSa. assert (Na : 0 < nlimbs a) by (apply (mul_lt_cancel LB); lia).
  apply wp_bind, wp_partial_high_mask; auto. apply wp_bind, wp_clear_above; [auto|lia|]. intros a1 (O1 & S1 & V1).
  apply wp_mif; intros E; [apply Z.eqb_eq in E; lia|]. clear E.
  set (A := mpval a mod 256 ^ n) in *. set (N := 256 ^ mp_len a) in *. set (nl := nlimbs a) in *.
  pf (p256_pos (mp_len a) La) as NP. fold N in NP. destruct (in_nlimbs a n Ha Hn) as [IN IL]. fold nl in IN. pf (p256_pos n (proj1 Hn)) as P256.
  pf (Z.mod_pos_bound (mpval a) (256 ^ n)) as HA. fold A in HA.
  set (inl := ct_mp_nlimbs n) in *. apply wp_bind.
  eapply wp_for with (I := fun i '(b', carry) => exists L, upinv a A i L b' /\ isl carry /\ exists t, L + carry * B ^ i = A mod B ^ i * x + N * t); [lia| | |].
  - exists 0. split; [|split; [apply isl_0|]].
    + split; [auto|]. split; [auto|]. rewrite V1, Z.pow_0_r, Z.div_1_r. lia.
    + exists 0. rewrite Z.pow_0_r, Z.mod_1_r. lia.
  - intros i [b carry] Hi (L & U & Ic & t & E). apply wp_bind. eapply wp_up_load; eauto; [lia|fold nl; lia|].
    apply wp_bind, wp_mul_add; auto; try apply vlimb_isl; [apply isl_0|]. intros h r Ih Ir Er. apply wp_bind, wp_usub; [lia|].
    apply wp_bind. eapply wp_store_hm; eauto; [fold nl; lia|]. intros b' U'. fold N in U'. apply wp_ret.
    eexists. split; [apply U'|]. split; [auto|]. destruct (mod_cong (L + r * B ^ i) N) as [s ->]. exists (t + s).
    rewrite vmod_S, Bpow_S by lia.
    replace (L + r * B ^ i + N * s + h * (B * B ^ i)) with ((h * B + r) * B ^ i + L + N * s) by ring. rewrite <- Er.
    replace ((0 + vlimb A i * x + carry) * B ^ i + L + N * s) with (vlimb A i * x * B ^ i + (L + carry * B ^ i) + N * s) by ring. rewrite E. ring.
  - intros [b carry] (L & U & Ic & t & E). rewrite (Z.mod_small A) in E by lia. apply wp_mif; intros C.
    + apply negb_true_iff, Z.eqb_neq in C. apply wp_bind, wp_usub; [lia|].
      eapply wp_store_hm; eauto; [fold nl; lia|]. intros b' U'. fold N in U'.
      pf (Bpow_S inl) as BS. pf (Bpow_pos inl). pf (mul_le_l (B ^ inl) 1 B).
      destruct (upinv_end' a A (inl + 1) _ b' Ha U') as [BE' HL]; [lia|lia|]. fold N in HL. apply HQ.
      replace ((A * x) mod N) with ((L + carry * B ^ inl) mod N); auto. rewrite E.
      rewrite (Z.mul_comm N t), Z.mod_add by lia. auto.
    + apply negb_false_iff, Z.eqb_eq in C. apply wp_ret, HQ. rewrite C in U, E.
      destruct (upinv_end' a A nl _ b Ha U) as [BE' HL]; [lia|rewrite <- C; lia|]. fold N in HL.
      enough (EL : L = (A * x) mod N) by (rewrite <- EL; auto).
      destruct (nlimbs_pow_div a) as [q Hq]. fold nl N in Hq. apply (cong_mod _ _ _ (t - carry * q)); auto. rewrite Hq in E. lia.
Qed.

(** ** Squaring *)

(** The doubled high half and the carry are added up correctly; if assertions are checked, this panics otherwise. *)
Definition double_ok (h s : Z) : Prop := if debug c then h <> B / 2 - 1 /\ (h = B / 2 - 2 -> s <= B - 2) else 2 * h < B -> s < B.
Lemma wx_square_double : forall e lph carry (Q : Z * Z -> Prop), 0 <= lph <= B - 2 -> 0 <= carry <= 4 -> (carry <= 2 \/ lph <= B - 3) ->
  double_ok lph (2 * lph + carry) \/ (debug c = true /\ e = true) ->
  (forall c0 s, double_ok lph (2 * lph + carry) -> (c0 = 0 \/ c0 = 1) -> 0 <= s <= B - 1 -> (c0 = 1 -> s <= B - 2) -> 2 * lph + carry = c0 * B + s -> Q (c0, s)) ->
  wx e (square_double lph carry) Q.
Proof.
  intros e lph carry Q Hl Hc Hlc OK HQ. unfold square_double. pose proof W_pos as HW. pose proof B_gt as HB. pose proof B_pow2_half as BH.
  unfold double_ok in *.
  set (H := 2 ^ (W - 1)) in *. assert (B2 : B / 2 = H) by (rewrite BH, Z.mul_comm, Z.div_mul by lia; auto). rewrite B2 in *.
  apply wx_bind, wp_sub32; [lia|]. apply wx_bind, wp_lshr; [lia|]. fold H. unfold lwmul.
  assert (C : (lph < H /\ lph / H = 0 /\ (lph * 2) mod B = 2 * lph) \/ (H <= lph /\ lph / H = 1 /\ (lph * 2) mod B = 2 * lph - B)).
  { destruct (Z_lt_le_dec lph H).
    - left. split; [auto|]. split; [apply Z.div_small; lia|rewrite Z.mod_small; lia].
    - right. split; [auto|]. split; [symmetry; apply (Z.div_unique lph H 1 (lph - H)); lia|symmetry; apply (Z.mod_unique _ _ 1); lia]. }
  set (c0 := lph / H) in *. set (d := (lph * 2) mod B) in *. clearbody c0 d. clear B2.
  assert (I3 : isl 3) by (unfold isl; lia). assert (I5 : isl 5) by (unfold isl; lia).
  rewrite !lnot_eq by auto. unfold dassert. destruct (debug c) eqn:D.
  - destruct (Z.leb_spec d (B - 1 - 3)) as [D1|D1].
    + apply wx_bind, wp_ret. destruct ((carry <=? 2) || (d <=? B - 1 - 5)) eqn:D2.
      * apply orb_true_iff in D2. rewrite !Z.leb_le in D2.
        apply wx_bind, wp_ret. apply wx_bind, wp_ladd; [lia|]. apply wx_ret. apply HQ; lia.
      * apply orb_false_iff in D2. rewrite !Z.leb_gt in D2. destruct OK as [OK|[_ ->]]; [lia|]. apply pan_wx. reflexivity.
    + destruct OK as [OK|[_ ->]]; [lia|]. apply pan_wx. reflexivity.
  - destruct OK as [OK|[X _]]; [|discriminate X]. apply wx_bind, wp_ret, wx_bind, wp_ret. apply wx_bind, wp_ladd; [lia|]. apply wx_ret. apply HQ; auto; lia.
Qed.

Lemma prod_high_le : forall u v h l, isl u -> isl v -> isl h -> isl l -> u * v = h * B + l -> 0 <= h <= B - 2 /\ (h = B - 2 -> l = 1).
Proof.
  intros u v h l Hu Hv Hh Hl E. pose proof B_gt.
  assert (u * v <= (B - 1) * (B - 1)) by (unfold isl in *; apply Z.mul_le_mono_nonneg; lia). split.
  - unfold isl in *. split; [lia|]. destruct (Z_le_gt_dec h (B - 2)); auto. exfalso.
    pf (mul_le_l B (B - 1) h). lia.
  - intros ->. assert (l <> 0). { intros ->. apply (sq_pred u v); auto. lia. } unfold isl in *. lia.
Qed.

(** One step of the doubled products. *)
Lemma sq_step : forall N L L' P K r K0 v0 v0i u X xk Pk Bj t s, L' = L + r * P + N * s ->
  L + K0 * P = v0 + 2 * u * X * Bj + N * t -> r + K * B = v0i + 2 * (u * xk) + K0 -> P = Bj * Pk ->
  L' + K * (P * B) = (v0 + v0i * P) + 2 * u * (X + xk * Pk) * Bj + N * (t + s).
Proof.
  intros N L L' P K r K0 v0 v0i u X xk Pk Bj t s -> E1 E2 ->.
  replace (L + r * (Bj * Pk) + N * s + K * (Bj * Pk * B)) with (L + (r + K * B) * (Bj * Pk) + N * s) by ring. rewrite E2.
  replace (L + (v0i + 2 * (u * xk) + K0) * (Bj * Pk) + N * s) with ((L + K0 * (Bj * Pk)) + (v0i + 2 * (u * xk)) * (Bj * Pk) + N * s) by ring. rewrite E1. ring.
Qed.
Lemma sq_step1 : forall N L L' P K r K0 v0 v0i D C t, (exists t, L' = L + r * P + N * t) ->
  L + K0 * P = v0 + C + N * t -> r + K * B = v0i + K0 + D ->
  exists t', L' + K * (P * B) = (v0 + v0i * P) + (C + D * P) + N * t'.
Proof.
  intros N L L' P K r K0 v0 v0i D C t [s ->] E1 E2. exists (t + s).
  replace (L + r * P + N * s + K * (P * B)) with (L + (r + K * B) * P + N * s) by ring. rewrite E2.
  replace (L + (v0i + K0 + D) * P + N * s) with ((L + K0 * P) + (v0i + D) * P + N * s) by ring. rewrite E1. ring.
Qed.

(** What is carried over is determined by the operand. *)
Lemma square_carry_eq : forall A N j k V0 t L K, 0 <= j -> 1 <= k -> (exists q, N = B ^ (j + k) * q) ->
  V0 = A mod B ^ j + A * A - A mod B ^ (j + 1) * (A mod B ^ (j + 1)) + N * t ->
  0 <= L < B ^ (j + k) -> L + K * B ^ (j + k) = V0 mod B ^ (j + k) + 2 * vlimb A j * (A mod B ^ k) * B ^ j -> K = square_carry A j k.
Proof.
  intros A N j k V0 t L K Hj Hk [q Hq] EV HL E. unfold square_carry, limb_at. fold (vlimb A j).
  pf (Bpow_pos j) as Pj. pf (Bpow_pos k) as Pk. pf (Bpow_pos (j + k)) as Pjk. pf (Bpow_pos (j + 1)) as Pj1. pose proof B_pos as BP.
  pose proof (Z.mod_pos_bound A (B ^ j) Pj) as HB. set (l := A mod B ^ j) in *.
  rewrite !Z.pow_2_r. set (M := A mod B ^ (j + 1)) in *. set (D := A * A - M * M).
  assert (DD : exists d, D = B ^ j * d).
  { destruct (mod_cong A (B ^ (j + 1))) as [x Hx]. fold M in Hx. exists (- (B * x) * (A + M)). unfold D.
    rewrite Hx. rewrite Bpow_S by lia. ring. }
  destruct DD as [d Hd]. assert (EP : B ^ (j + k) = B ^ j * B ^ k) by (apply Z.pow_add_r; lia).
  assert (ED : D mod B ^ (j + k) = B ^ j * (d mod B ^ k)). { rewrite Hd, EP. apply Z.mul_mod_distr_l; lia. }
  pose proof (Z.mod_pos_bound d (B ^ k) Pk) as HD.
  assert (EV0 : V0 mod B ^ (j + k) = l + D mod B ^ (j + k)).
  { rewrite EV, Hq. replace (l + A * A - M * M + B ^ (j + k) * q * t) with (l + D + (q * t) * B ^ (j + k)) by (unfold D; ring).
    rewrite Z.mod_add by lia. rewrite <- Z.add_mod_idemp_r by lia. apply Z.mod_small. rewrite ED, EP.
    assert (B ^ j * (d mod B ^ k) <= B ^ j * (B ^ k - 1)) by (apply Z.mul_le_mono_nonneg_l; lia).
    assert (0 <= B ^ j * (d mod B ^ k)) by (apply Z.mul_nonneg_nonneg; lia). lia. }
  rewrite EV0, ED in E. rewrite ED. set (u := vlimb A j) in *. set (X := A mod B ^ k) in *.
  assert (K1 : K = (l + (d mod B ^ k + 2 * u * X) * B ^ j) / B ^ (j + k)).
  { apply (Z.div_unique _ _ K L); [left; auto|]. lia. }
  rewrite K1. replace (B ^ j * (d mod B ^ k) + 2 * u * X * B ^ j) with ((d mod B ^ k + 2 * u * X) * B ^ j) by ring.
  rewrite EP, <- !Z.div_div by lia. set (Y := d mod B ^ k + 2 * u * X).
  rewrite (Z.div_add l Y (B ^ j)) by lia. rewrite (Z.div_mul Y (B ^ j)) by lia.
  rewrite (Z.div_small l (B ^ j)) by (unfold l; apply Z.mod_pos_bound; lia). reflexivity.
Qed.
Lemma fine_ok : forall n v, square_fine n v <-> (forall j k, 0 < k <= j -> j + k < n -> double_ok (vlimb v (k - 1) * vlimb v j / B) (square_carry v j k)).
Proof. intros. reflexivity. Qed.

Lemma small_store : forall r L P N, 0 <= L < P -> isl r -> B * P <= N -> 0 <= L + r * P < N.
Proof.
  unfold isl. intros r L P N HL Ir SL. assert (0 <= r * P) by (apply Z.mul_nonneg_nonneg; lia).
  assert (r * P <= (B - 1) * P) by (apply Z.mul_le_mono_nonneg_r; lia). lia.
Qed.
Lemma wx_square : forall e a n (Q : mp -> Prop), mp_ok a -> 0 <= n <= mp_len a ->
  (let v := mpval a mod 256 ^ n in
   forall j k, 0 < k <= j -> j + k < nlimbs a -> let h := vlimb v (k - 1) * vlimb v j / B in
     square_carry v j k <= 2 * h + 4 -> double_ok h (square_carry v j k) \/ (debug c = true /\ e = true)) ->
  (forall a', square_fine (nlimbs a) (mpval a mod 256 ^ n) ->
     becomes a a' ((mpval a mod 256 ^ n * (mpval a mod 256 ^ n)) mod 256 ^ mp_len a) -> Q a') ->
  wx e (ct_square_trunc_mp a n) Q.
Proof.
  intros e a n Q Ha Hn SAFE HQ. cbv zeta in SAFE. unfold ct_square_trunc_mp. apply wx_bind, wp_dassert; [apply Z.leb_le; lia|].
  pose proof LB_pos as HLB. pose proof B_gt as HB. pose proof (mp_len_nonneg a) as La.
  destruct (Z.eq_dec (mp_len a) 0) as [Z0|Z0].
  { assert (EN : nlimbs a = 0). { unfold nlimbs. rewrite Z0. apply ct_mp_nlimbs_unique; lia. }
    assert (n = 0) by lia. subst n. xb; apply wp_partial_high_mask_any. intros m. xb; apply wp_clear_above; [auto|lia|]. intros b' CA.
    rewrite (ct_mp_nlimbs_unique 0 0) by lia. cbv beta delta [zfor_down]. cbn.
    xr. apply HQ; [intros j k H1 H2; lia|]. destruct CA as (O & S & V). split; [auto|]. split; [auto|].
    rewrite V, Z0. rewrite !Z.mod_1_r. auto. }
  pose proof (nlimbs_spec a) as NSa. assert (Na : 0 < nlimbs a) by (apply (mul_lt_cancel LB); lia).
  xb; apply wp_partial_high_mask; auto. xb; apply wp_clear_above; [auto|lia|]. intros a1 (O1 & S1 & V1).
  set (A := mpval a mod 256 ^ n) in *. set (N := 256 ^ mp_len a) in *. set (nl := nlimbs a) in *.
  pf (p256_pos (mp_len a) La) as NP. fold N in NP. destruct (in_nlimbs a n Ha Hn) as [IN IL]. fold nl in IN. pf (p256_pos n (proj1 Hn)) as P256.
  pf (Z.mod_pos_bound (mpval a) (256 ^ n)) as HA. fold A in HA.
  eapply wx_for_down with (I := fun j b' => (forall j' k, j <= j' -> 0 < k <= j' -> j' + k < nl -> double_ok (vlimb A (k - 1) * vlimb A j' / B) (square_carry A j' k)) /\
      mp_ok b' /\ same_shape a b' /\ mpval b' mod B ^ j = A mod B ^ j /\
      exists t, mpval b' = A mod B ^ j + A * A - A mod B ^ j * (A mod B ^ j) + N * t); [lia| | |].
  - split.
    { intros j' k H1 H2 H3. assert (Z0A : vlimb A j' = 0) by (apply (vlimb_out A (ct_mp_nlimbs n)); lia). rewrite Z0A, Z.mul_0_r, Z.div_0_l by lia.
      assert (C0 : square_carry A j' k = 0).
      { unfold square_carry, limb_at. fold (vlimb A j'). rewrite Z0A. rewrite (Z.mod_small A (B ^ (j' + 1))).
        - rewrite Z.sub_diag, Z.mod_0_l by (pf (Bpow_pos (j' + k)); lia). rewrite Z.mul_0_r. cbn [Z.mul Z.add]. apply Z.div_0_l. pf (Bpow_pos (j' + k)); lia.
        - split; [lia|]. apply Z.lt_le_trans with (B ^ ct_mp_nlimbs n); [lia|]. apply Z.pow_le_mono_r; lia. }
      rewrite C0. clear - HB. unfold double_ok. pose proof (Z_div_mod_eq_full B 2) as X1. pose proof (Z.mod_pos_bound B 2 ltac:(lia)) as X2. destruct (debug c); lia. }
    split; [auto|]. split; [auto|]. rewrite V1. split; [auto|]. exists 0. rewrite Z.mod_small by lia. lia.
  - intros j b1 Hj (DONE & O & S & Mj & t & E). assert (Hjl : 0 <= j < nl) by lia. pose proof (shape_nlimbs _ _ S) as NL. fold nl in NL.
    pf (Bpow_pos j) as Pj. pf (Bpow_pos (j + 1)) as Pj1.
    xb; apply wp_load; auto; [lia|]. rewrite limb_vlimb.
    assert (EU : vlimb (mpval b1) j = vlimb A j). { rewrite <- (limb_of_mod (mpval b1) j (j + 1)), <- (limb_of_mod A j (j + 1)) by lia. rewrite Mj. auto. }
    rewrite EU. pose proof (vlimb_isl A j) as Iu.
    assert (SF : forall k, 0 < k <= j -> j + k < nl -> square_carry A j k <= 2 * (vlimb A (k - 1) * vlimb A j / B) + 4 ->
      double_ok (vlimb A (k - 1) * vlimb A j / B) (square_carry A j k) \/ (debug c = true /\ e = true)) by (intros; apply SAFE; auto).
    set (u := vlimb A j) in *. clear SAFE.
    xb; apply wp_store; auto; [lia|pf (lim_pos b1 j); lia|]. intros b2 S2.
    pf (store0_val b1 b2 j O (proj1 Hjl) S2) as V2. rewrite EU in V2. fold u in V2.
    assert (O2 : mp_ok b2) by apply S2. assert (SH2 : same_shape a b2) by (eapply shape_trans; [eauto|apply S2]).
    pose proof (mpval_bound b2 O2) as B2. rewrite (shape_len _ _ SH2) in B2. fold N in B2.
    pose proof (upinv_at a b2 j O2 SH2 (proj1 Hjl)) as U0. set (V0 := mpval b2) in *.
    assert (M2 : V0 mod B ^ j = A mod B ^ j).
    { unfold V0. rewrite (store_mod b1 b2 j 0) by (auto; lia). rewrite <- (mod_mod_pow (mpval b1) B j (j + 1)), <- (mod_mod_pow A B j (j + 1)) by lia. rewrite Mj. auto. }
    clearbody V0. clear S2.
    xb; apply wp_usub; [lia|]. apply wx_bindx.
    destruct (pow_div_total a j Hjl) as [qj Hqj]. fold N in Hqj. assert (Pq : 0 < qj) by (apply (mul_lt_cancel (B ^ j)); lia).
    set (l := A mod B ^ j) in *.
    assert (FIN : forall bb, becomes a bb ((V0 + 2 * u * l * B ^ j + u * u * B ^ j * B ^ j) mod N) ->
       (forall k, 0 < k <= j -> j + k < nl -> double_ok (vlimb A (k - 1) * u / B) (square_carry A j k)) ->
       (forall j' k, j <= j' -> 0 < k <= j' -> j' + k < nl -> double_ok (vlimb A (k - 1) * vlimb A j' / B) (square_carry A j' k)) /\
       mp_ok bb /\ same_shape a bb /\ mpval bb mod B ^ j = l /\ exists t, mpval bb = l + A * A - l * l + N * t).
    { intros bb (Obb & Sbb & Vbb) DK. split.
      { intros j' k H1 H2 H3. destruct (Z.eq_dec j' j) as [->|NJ]; [apply DK; auto|]. apply DONE; auto; lia. }
      split; [auto|]. split; [auto|]. split.
      - rewrite Vbb. rewrite Hqj, mod_mul_le by lia. rewrite !Z.mod_add by lia. auto.
      - rewrite Vbb, V2, E. match goal with |- context [?x mod N] => destruct (mod_cong x N) as [t' Ht] end.
        exists (t + t'). rewrite Ht. rewrite (vmod_S A j) by lia. fold u l. ring. }
    set (rn := nl - j) in *. set (mask := lim a (nl - 1) - 1).
    assert (LASTK : forall k, (k =? rn - 1) = (j + k =? nl - 1)) by (intros k; unfold rn; destruct (Z.eqb_spec k (nl - j - 1)), (Z.eqb_spec (j + k) (nl - 1)); auto; lia).
    assert (ENDM : forall L X K t', 0 <= L < N -> L + K * B ^ nl = V0 mod B ^ nl + X + N * t' -> L = (V0 + X) mod N).
    { intros L X K t' HL E'. destruct (nlimbs_pow_div a) as [q Hq]. fold nl N in Hq. destruct (mod_cong V0 (B ^ nl)) as [t1 T1].
      rewrite T1, Hq in E'. apply (cong_mod _ _ _ (q * t1 + t' - K * q)); auto. lia. }
    set (inv := fun k (b' : mp) K => exists L, upinv a V0 (j + k) L b' /\ L mod B ^ j = l /\ exists t, L + K * B ^ (j + k) = V0 mod B ^ (j + k) + 2 * u * (A mod B ^ k) * B ^ j + N * t /\ (j + k < nl -> t = 0)).
    assert (HV0 : V0 = l + A * A - A mod B ^ (j + 1) * (A mod B ^ (j + 1)) + N * t).
    { rewrite V2, E, (vmod_S A j) at 1 by lia. fold u l. ring. }
    assert (HALF : 0 < B / 2 - 2) by (clear - HB; pose proof (Z_div_mod_eq_full B 2); pose proof (Z.mod_pos_bound B 2 ltac:(lia)); lia).
    (* the carry is what it should be *)
    assert (CE : forall k b' lph carry, inv k b' (2 * lph + carry) -> 0 <= k <= j -> j + k < nl -> 0 <= carry <= 4 ->
        (k = 0 /\ lph = 0 /\ carry = 0) \/ (0 < k /\ lph = vlimb A (k - 1) * u / B) ->
        (double_ok lph (2 * lph + carry) \/ (debug c = true /\ e = true)) /\
        (0 < k -> double_ok lph (2 * lph + carry) -> double_ok (vlimb A (k - 1) * u / B) (square_carry A j k))).
    { intros k b' lph carry (L & U & Ml & t' & E' & T0) Hk Hjk Hca [(K0 & -> & ->)|(K0 & EL)].
      - split; [|lia]. left. unfold double_ok. destruct (debug c); lia.
      - rewrite (T0 Hjk), Z.mul_0_r, Z.add_0_r in E'.
        destruct (pow_div_total a (j + k)) as [qk Hqk]; [fold nl; lia|]. fold N in Hqk.
        assert (SC : 2 * lph + carry = square_carry A j k).
        { eapply (square_carry_eq A N j k V0 t L); eauto; [lia|lia|]. apply (upinv_L _ _ _ _ _ U). }
        rewrite SC, <- EL. split; [|auto]. pf (SF k) as SFk. rewrite <- EL, <- SC in SFk. rewrite <- SC. apply SFk; lia. }
    eapply wx_for with (I := fun k '(b', lph, carry) => inv k b' (2 * lph + carry) /\ 0 <= lph <= B - 2 /\ 0 <= carry <= 4 /\ (carry <= 2 \/ lph <= B - 3) /\
        ((k = 0 /\ lph = 0 /\ carry = 0) \/ (0 < k /\ lph = vlimb A (k - 1) * u / B)) /\
        (forall k', 0 < k' < k -> j + k' < nl -> double_ok (vlimb A (k' - 1) * u / B) (square_carry A j k'))).
    + lia.
    + split; [|split; [lia|split; [lia|split; [lia|split; [auto|intros; lia]]]]]. exists (V0 mod B ^ j). rewrite Z.add_0_r. split; [auto|].
      split; [rewrite Z.mod_mod by lia; auto|]. exists 0. rewrite Z.pow_0_r, Z.mod_1_r. split; [ring|auto].
    + intros k [[b3 lph] carry] Hk (INV & Hl1 & Hc1 & Hlc & Hlast & Hdone).
      assert (HkB : 0 <= k <= j /\ j + k < nl) by (unfold rn in Hk; lia).
      destruct (CE k b3 lph carry INV (proj1 HkB) (proj2 HkB) Hc1 Hlast) as [CE1 CE2]. destruct INV as (L & U & Ml & t' & E' & T0).
      assert (ROW : vlimb (mpval b3) k = vlimb A k).
      { rewrite <- limb_vlimb, (upinv_low _ _ _ _ _ _ U) by lia. rewrite <- (limb_of_mod L k j), <- (limb_of_mod A k j) by lia. rewrite Ml. auto. }
      xb; apply wp_load; [apply U|rewrite (upinv_nlimbs _ _ _ _ _ U); fold nl; lia|]. rewrite limb_vlimb, ROW. clear ROW.
      pose proof (vlimb_isl A k) as Ik. set (xk := vlimb A k) in *.
      xb; apply wp_mul_l; auto. intros ph pl Iph Ipl EP. destruct (prod_high_le _ _ _ _ Iu Ik Iph Ipl EP) as [Hph Hpl].
      assert (PHD : vlimb A k * u / B = ph). { fold xk. symmetry. apply (Z.div_unique _ _ _ pl); [left; unfold isl in Ipl; lia|lia]. }
      xb. eapply wp_up_load; eauto; [lia|fold nl; lia|]. pose proof (vlimb_isl V0 (j + k)) as Ires. set (res := vlimb V0 (j + k)) in *.
      apply wx_bindx, wx_square_double; auto. intros c0 s OKd Hc0 Hs Hs1 E0.
      xb; apply wp_add_l; [auto|unfold isl; lia|]. intros c1 r1 Hc1' Ir1 E1.
      pose proof W_pos as HW. xb; apply wp_sub32; [lia|]. xb; apply wp_lshr; [lia|]. unfold lwmul.
      assert (Epl : exists c2 q, (c2 = 0 \/ c2 = 1) /\ isl q /\ pl / 2 ^ (W - 1) = c2 /\ (pl * 2) mod B = q /\ 2 * pl = c2 * B + q).
      { pose proof B_pow2_half as BH. unfold isl in *. clear - BH Ipl HB. set (H := 2 ^ (W - 1)) in *. destruct (Z_lt_le_dec pl H).
        - exists 0, (2 * pl). split; [auto|]. split; [lia|]. split; [apply Z.div_small; lia|]. split; [rewrite Z.mod_small; lia|lia].
        - exists 1, (2 * pl - B). split; [auto|]. split; [lia|]. split; [symmetry; apply (Z.div_unique pl H 1 (pl - H)); lia|].
          split; [symmetry; apply (Z.mod_unique _ _ 1); lia|lia]. }
      destruct Epl as (c2 & q & Hc2 & Iq & -> & -> & E2).
      xb; apply wp_add_l; auto. intros c3 r Hc3 Ir E3.
      assert (CARRY : c0 + c1 + c2 + c3 <= 2 \/ ph <= B - 3).
      { destruct (Z.eq_dec ph (B - 2)) as [X|X]; [left|lia]. specialize (Hpl X). unfold isl in *. clear - Hpl E0 E1 E2 E3 Hc0 Hc1' Hc2 Hc3 Hs Hs1 Ires Iq Ir Ir1 HB. lia. }
      assert (CR : (0 <= c0 + c1 < B) /\ (0 <= c0 + c1 + c2 < B) /\ (0 <= c0 + c1 + c2 + c3 < B) /\ (0 <= c0 + c1 + c2 + c3 <= 4)) by (clear - Hc0 Hc1' Hc2 Hc3 HB; lia).
      destruct CR as (CR1 & CR2 & CR3 & CR4).
      xb; apply wp_ladd; [exact CR1|]. xb; apply wp_ladd; [exact CR2|]. xb; apply wp_ladd; [exact CR3|].
      xb; apply wp_dassert; [rewrite lnot_1; apply Z.leb_le; apply Hph|].
      xb; apply wp_dassert; [clear - CARRY HB; rewrite lnot_eq by (unfold isl; lia); apply orb_true_iff; rewrite !Z.leb_le; lia|].
      xb; apply wp_usub; [clear - Hk; lia|].
      xb. eapply wp_store_hm; [apply U|fold nl; clear - Hk Hjl; lia|exact Ir|apply LASTK|reflexivity|].
      intros b4 U4. fold N in U4. xr. split; [|split; [exact Hph|split; [exact CR4|split; [exact CARRY|split]]]].
      2:{ right. split; [lia|]. replace (k + 1 - 1) with k by lia. auto. }
      2:{ intros k' H1 H2. destruct (Z.eq_dec k' k) as [->|NK]; [apply CE2; auto; lia|apply Hdone; lia]. }
      eexists. replace (j + (k + 1)) with (j + k + 1) by lia. split; [apply U4|]. split.
      { rewrite Hqj, mod_mul_le, Z.pow_add_r by lia. replace (r * (B ^ j * B ^ k)) with (r * B ^ k * B ^ j) by ring. rewrite Z.mod_add by lia. auto. }
      rewrite (vmod_S V0 (j + k)), (vmod_S A k), (Bpow_S (j + k)), (Z.mul_comm B (B ^ (j + k))) by (clear - Hk Hjl; lia). fold res xk.
      assert (HLs : exists s0, (L + r * B ^ (j + k)) mod N = L + r * B ^ (j + k) + N * s0 /\ (j + k + 1 < nl -> s0 = 0)).
      { destruct (Z_lt_le_dec (j + k + 1) nl) as [X|X].
        - exists 0. split; [|auto]. rewrite Z.mul_0_r, Z.add_0_r. apply Z.mod_small.
          pose proof (upinv_L _ _ _ _ _ U) as HL. assert (Bpow_pos' : 0 < B ^ (j + k)) by (apply Bpow_pos; lia).
          assert (SL : B ^ (j + k + 1) <= N) by (apply small_len; fold nl; lia). rewrite Bpow_S in SL by lia.
          exact (small_store r L (B ^ (j + k)) N HL Ir SL).
        - destruct (mod_cong (L + r * B ^ (j + k)) N) as [s0 Hs0]. exists s0. split; [auto|lia]. }
      destruct HLs as (s0 & HLs & Hs0). exists (t' + s0). split.
      * eapply sq_step; [apply HLs|apply E'| |apply Z.pow_add_r; lia].
        clear - E0 E1 E2 E3 EP. rewrite EP. lia.
      * intros X. rewrite T0, Hs0 by lia. lia.
    + intros [[b3 lph] carry] (INV & Hl1 & Hc1 & Hlc & Hlast & Hdone). xm; intros C.
      * apply Z.leb_le in C. rewrite Z.min_r in INV, Hlast, Hdone by lia. destruct INV as (L & U & Ml & t' & E' & _). xr; apply FIN; [|intros k' H1 H2; apply Hdone; unfold rn; lia].
        replace (j + rn) with nl in * by (unfold rn; lia).
        destruct (upinv_end a V0 L b3 Ha B2 U) as [BE' HL]. fold N in HL.
        enough (EL : L = (V0 + 2 * u * l * B ^ j + u * u * B ^ j * B ^ j) mod N) by (rewrite <- EL; auto).
        destruct (mod_cong l (B ^ rn)) as [t2 T2].
        assert (HP : B ^ nl = B ^ rn * B ^ j) by (rewrite <- Z.pow_add_r by lia; f_equal; unfold rn; lia).
        assert (HP2 : B ^ j = B ^ rn * B ^ (j - rn)) by (rewrite <- Z.pow_add_r by lia; f_equal; lia).
        assert (AL : A mod B ^ rn = l mod B ^ rn) by (symmetry; apply mod_mod_pow; lia).
        rewrite AL, T2 in E'.
        replace (V0 + 2 * u * l * B ^ j + u * u * B ^ j * B ^ j) with (V0 + (2 * u * l * B ^ j + u * u * B ^ j * B ^ j)) by ring.
        apply (ENDM L (2 * u * l * B ^ j + u * u * B ^ j * B ^ j) (2 * lph + carry - 2 * u * t2 + u * u * B ^ (j - rn)) t'); auto.
        replace (L + (2 * lph + carry - 2 * u * t2 + u * u * B ^ (j - rn)) * B ^ nl)
          with ((L + (2 * lph + carry) * B ^ nl) - 2 * u * t2 * B ^ nl + u * u * B ^ (j - rn) * B ^ nl) by ring.
        rewrite E'. replace (u * u * B ^ j * B ^ j) with (u * u * (B ^ rn * B ^ (j - rn)) * B ^ j) by (rewrite <- HP2; ring). rewrite HP. ring.
      * apply Z.leb_gt in C. rewrite Z.min_l in INV, Hlast, Hdone by lia.
        assert (Hj2 : j + j < nl) by (unfold rn in C; lia). destruct (CE j b3 lph carry INV ltac:(lia) Hj2 Hc1 Hlast) as [CE1 CE2]. destruct INV as (L & U & Ml & t' & E' & _).
        replace (j + j) with (2 * j) in * by lia. fold l in E'.
        xb; apply wp_mul_l; auto. intros ph pl Iph Ipl EP.
        xb. assert (H2j : 0 <= 2 * j <= 2 * j) by lia. assert (H2l : 2 * j < nlimbs a) by (fold nl; lia).
        apply (wp_up_load _ _ _ _ _ _ _ U H2j H2l). clear H2j H2l. pose proof (vlimb_isl V0 (2 * j)) as Ires. set (res := vlimb V0 (2 * j)) in *.
        apply wx_bindx, wx_square_double; auto. intros c0 s OKd Hc0 Hs _ E0.
        xb; apply wp_add_l; [auto|unfold isl; lia|]. intros c1 r1 Hc1' Ir1 E1.
        xb; apply wp_add_l; auto. intros c2 r Hc2 Ir E2.
        xb; apply wp_ladd; [lia|]. xb; apply wp_ladd; [lia|].
        xb; apply wp_usub; [lia|].
        set (C1 := 2 * u * l * B ^ j + u * u * B ^ j * B ^ j).
        assert (ST : forall b4, upinv a V0 (2 * j + 1) ((L + r * B ^ (2 * j)) mod N) b4 ->
           exists L4, upinv a V0 (j + (j + 1)) L4 b4 /\ exists t, L4 + (ph + (c0 + c1 + c2)) * B ^ (j + (j + 1)) = V0 mod B ^ (j + (j + 1)) + C1 + N * t).
        { intros b4 U4. exists ((L + r * B ^ (2 * j)) mod N). replace (j + (j + 1)) with (2 * j + 1) by lia. split; [auto|].
          rewrite (vmod_S V0 (2 * j)), (Bpow_S (2 * j)), (Z.mul_comm B (B ^ (2 * j))) by lia. fold res.
          assert (HP : B ^ (2 * j) = B ^ j * B ^ j) by (rewrite <- Z.pow_add_r by lia; f_equal; lia).
          replace C1 with (2 * u * l * B ^ j + (u * u) * B ^ (2 * j)) by (unfold C1; rewrite HP; ring).
          eapply sq_step1; [apply mod_cong|apply E'|]. rewrite EP. clear - E0 E1 E2. lia. }
        xb.
        assert (STORE : forall Q' : mp -> Prop, (forall b4, upinv a V0 (2 * j + 1) ((L + r * B ^ (2 * j)) mod N) b4 -> Q' b4) ->
            wp (mif negb (j =? rn - 1) then store_l_full b3 (2 * j) r else store_l b3 (2 * j) (Z.land r mask)) Q').
        { intros Q' HQ'. unfold mask. xm; intros CC.
          - apply negb_true_iff, Z.eqb_neq in CC. eapply wp_up_store_full; eauto; [lia|apply full_inner; fold nl; unfold rn in *; lia|].
            intros b4 U4. apply HQ'. rewrite Z.mod_small; auto. pose proof (upinv_L _ _ _ _ _ U4) as HL'. pose proof (upinv_L _ _ _ _ _ U) as HL. pf (Bpow_pos (2 * j)).
            split; [apply HL'|]. eapply Z.lt_le_trans; [apply HL'|]. apply small_len. fold nl. unfold rn in *. lia.
          - apply negb_false_iff, Z.eqb_eq in CC. assert (E2j : 2 * j = nl - 1) by (unfold rn in *; lia). rewrite E2j in *.
            eapply wp_up_store_last; eauto. intros b4 U4. fold nl in U4. apply HQ'. replace (nl - 1 + 1) with nl by lia.
            pf (lim_pos a (nl - 1)). unfold N. rewrite <- lim_total by auto. fold nl. rewrite hi_mod; auto; [|lia|apply (upinv_L _ _ _ _ _ U)].
            pf (Bpow_pos (nl - 1)). lia. }
        apply STORE. intros b4 U4. destruct (ST b4 U4) as (L4 & U4' & t4 & E4). clear STORE ST U4.
        xb.
        eapply wp_for with (I := fun k '(b', lph, carry) => isl lph /\ 0 <= carry <= 3 /\ exists L, upinv a V0 (j + k) L b' /\
           exists t, L + (lph + carry) * B ^ (j + k) = V0 mod B ^ (j + k) + C1 + N * t).
        -- unfold rn in *. lia.
        -- split; [auto|]. split; [lia|]. exists L4. split; [auto|]. eauto.
        -- intros k [[b5 lph5] carry5] Hk (Il5 & Hc5 & L5 & U5 & t5 & E5).
           xb. eapply wp_up_load; eauto; [lia|fold nl; unfold rn in *; lia|].
           xb; apply wp_add_l; auto; [apply vlimb_isl|]. intros k0 r0 Hk0 Ir0 Er0.
           xb; apply wp_add_l; auto; [unfold isl; clear - Hc5 HB; lia|]. intros k1 r5 Hk1 Ir5 Er5.
           xb; apply wp_ladd; [clear - Hk0 Hk1 HB; lia|]. xb; apply wp_usub; [clear - Hk Hjl; lia|].
           xb. eapply wp_store_hm; [apply U5|fold nl; unfold rn in *; clear - Hk Hjl; lia|exact Ir5|apply LASTK|reflexivity|].
           intros b6 U6. fold N in U6. xr. split; [apply isl_0|]. split; [clear - Hk0 Hk1; lia|].
           eexists. replace (j + (k + 1)) with (j + k + 1) by lia. split; [apply U6|].
           rewrite (vmod_S V0 (j + k)), (Bpow_S (j + k)), (Z.mul_comm B (B ^ (j + k))) by (clear - Hk Hjl; lia).
           replace C1 with (C1 + 0 * B ^ (j + k)) by ring.
           eapply sq_step1; [apply mod_cong|apply E5|]. clear - Er0 Er5. lia.
        -- intros [[b5 lph5] carry5] (_ & _ & L5 & U5 & t5 & E5). xr; apply FIN; [|intros k' H1 H2; destruct (Z.eq_dec k' j) as [->|NK]; [apply CE2; auto; lia|apply Hdone; lia]].
           replace (j + rn) with nl in * by (unfold rn; lia).
           destruct (upinv_end a V0 L5 b5 Ha B2 U5) as [BE' HL]. fold N in HL.
           rewrite <- Z.add_assoc. fold C1. rewrite <- (ENDM L5 C1 (lph5 + carry5) t5); auto.
  - intros b1 (DONE & O & S & _ & t & E). apply HQ; [apply fine_ok; intros; apply DONE; auto; lia|]. split; [auto|]. split; [auto|].
    pose proof (mpval_bound b1 O) as BB. rewrite (shape_len _ _ S) in BB. fold N in BB.
    rewrite Z.pow_0_r, Z.mod_1_r in E. apply (cong_mod _ _ _ t); auto. lia.
Qed.

(** No product of two limbs of different weight has one of these two high halves. *)
Definition square_safe (A : Z) : Prop := forall i j, 0 <= i < j ->
  vlimb A i * vlimb A j / B <> B / 2 - 1 /\ vlimb A i * vlimb A j / B <> B / 2 - 2.
Lemma wp_square : forall a n (Q : mp -> Prop), mp_ok a -> 0 <= n <= mp_len a -> square_safe (mpval a mod 256 ^ n) ->
  (forall a', becomes a a' ((mpval a mod 256 ^ n * (mpval a mod 256 ^ n)) mod 256 ^ mp_len a) -> Q a') ->
  wp (ct_square_trunc_mp a n) Q.
Proof.
  intros a n Q Ha Hn SAFE HQ. apply wp_wx, wx_square; auto. cbv zeta. intros j k Hk _ Hs. left.
  destruct (SAFE (k - 1) j ltac:(lia)) as [S1 S2]. unfold double_ok.
  pose proof B_pow2_half as BH. set (H := 2 ^ (W - 1)) in *. assert (B2 : B / 2 = H) by (rewrite BH, Z.mul_comm, Z.div_mul by lia; auto). rewrite B2 in *.
  destruct (debug c); lia.
Qed.

End Facts.
