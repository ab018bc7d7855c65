(** The statements of ThmMont.v, derived from the facts. *)
From Coq Require Import ZArith Znumtheory List Bool Lia.
Require Import Verif.Spec Verif.Base Verif.Monad Verif.Wp Verif.ModelLimb Verif.LimbFacts Verif.LimbFacts2
  Verif.ModelBuf Verif.SpecBuf Verif.BufFacts Verif.BufFacts2 Verif.BufFacts3 Verif.BufProofs Verif.UpFacts Verif.ModelCmp Verif.CmpFacts
  Verif.ModelAdd Verif.AddFacts Verif.AddFacts2 Verif.ModelDiv Verif.SpecDiv Verif.DivFacts4 Verif.DivProofs Verif.DivProofs2
  Verif.SpecMont Verif.ModelMont Verif.MontFacts Verif.MontFacts2 Verif.MontFacts3 Verif.MontFacts4 Verif.MontFacts5 Verif.MontFacts6.
Import ListNotations.
Open Scope Z_scope.

Section S.
Context {c : cfg}.

Lemma wp_montgomery_exp : forall r op0 n g radix e nbits s b (Q : result unit mg_err * mp * list Z -> Prop), mp_ok r -> mp_ok op0 -> mp_ok n -> mp_ok radix -> mp_ok e -> mp_ok (NE s) ->
  Z.odd (mpval n) = true -> neg_inv n g -> len_compat n (mp_len r) -> ct_mp_nlimbs (mp_len n) <= zlen s ->
  len_compat op0 (mp_len n) -> 0 < mp_len op0 -> mpval op0 = (b * mg_radix n) mod mpval n ->
  len_compat radix (mp_len n) -> mpval radix = mg_radix n mod mpval n ->
  mg_carry_ok n -> mg_room r n -> mg_room (NE s) n -> 0 <= nbits ->
  (forall r' s', becomes r r' ((b ^ (mpval e mod 2 ^ nbits) * mg_radix n) mod mpval n) -> mp_ok (NE s') -> zlen s' = zlen s -> Q (Ok tt, r', s')) ->
  wp (ct_montgomery_exp_mod_odd_mp_mp r op0 n g radix e nbits s) Q.
Proof.
  intros r op0 n g radix e nbits s b Q Hr H0 Hn Hra He Hs HO HG C LS C0 L0 F0 Cr Fr HC HR HRs Hb HQ.
  destruct (odd_nlimbs n Hn HO) as [N0 NP]. pose proof (mp_len_nonneg r) as Lr. pose proof (mp_len_nonneg n) as Ln.
  assert (V0 : mpval op0 < mpval n) by (rewrite F0; apply Z.mod_pos_bound; auto).
  assert (Vr : mpval radix < mpval n) by (rewrite Fr; apply Z.mod_pos_bound; auto).
  unfold ct_montgomery_exp_mod_odd_mp_mp. apply wp_bind, wp_test_bit; [auto|lia|]. rewrite Z.bit0_odd, HO, lc_unwrap_chc.
  apply wp_mif; intros E; [discriminate|]. clear E.
  apply wp_bind, wp_compat; [auto|lia|auto|]. apply wp_mif; intros E; [discriminate|]. clear E.
  apply wp_mif; intros E; [apply Z.ltb_lt in E; lia|]. clear E.
  apply wp_bind, wp_compat; [auto|lia|auto|]. apply wp_mif; intros E; [discriminate|]. clear E.
  apply wp_bind, wp_dassert_lt; auto.
  apply wp_bind, wp_compat; [auto|lia|auto|]. apply wp_mif; intros E; [discriminate|]. clear E.
  apply wp_bind, wp_dassert_lt; auto.
  apply wp_view with (K := fun full out => dassert (nlimbs out =? nlimbs n) ;; _); auto. intros rf r0 Of Sf O0 L1 K1 Nn NV HU0.
  apply wp_bind, wp_dassert; [apply Z.eqb_eq; auto|].
  apply wp_bind, wp_copy_from; [auto|auto|lia|]. intros r1 O1 S1 E1.
  assert (L2 : mp_len r1 = shrunk_len r (mp_len n)) by (rewrite (shape_len _ _ S1); auto).
  assert (K2 : kind_of r1 = kind_of r) by (destruct S1 as [-> _]; auto).
  apply wp_bind. apply wp_exp_loop with (b := b); auto.
  - rewrite (shape_nlimbs _ _ S1). auto.
  - apply (compat_view r); auto.
  - apply (view_compat r r1 n (mpval r1)); auto. lia.
  - rewrite (shape_len _ _ S1). auto.
  - rewrite L2. unfold shrunk_len. pose proof LB_pos. pf (align_rng (mp_len n)). destruct (supports_unaligned r); [lia|].
    rewrite !ct_align_spec by lia. rewrite !(Z.mul_comm _ LB). apply mul_le_l; [lia|]. apply nlimbs_len_mono. lia.
  - rewrite F0. apply inform_intro. auto.
  - rewrite E1, Fr. replace (mg_radix n) with (1 * mg_radix n) by lia. apply inform_intro. auto.
  - apply (room_view r); auto.
  - intros r2 v s' (O2 & S2 & E2) F2 Os' Ls'. apply wp_ret. apply HQ; auto. rewrite <- (inform_unique _ _ _ F2). apply HU0.
    split; [auto|]. split; [eapply shape_trans; eauto|auto].
Qed.

Lemma redc_form : forall n x v w, Z.odd (mpval n) = true -> 0 < mpval n -> inform n x v -> mg_reduced n v w -> w = x mod mpval n.
Proof.
  intros n x v w HO HN (HV & HE) (HW & HR). rewrite <- (Z.mod_small w (mpval n)) by auto. apply radix_cancel; auto. lia.
Qed.

Lemma wp_to_form : forall r t n g r2 (Q : result unit mg_err * mp -> Prop), mp_ok r -> mp_ok t -> mp_ok n -> mp_ok r2 -> Z.odd (mpval n) = true -> neg_inv n g ->
  len_compat n (mp_len r) -> len_compat t (mp_len n) -> mpval t < mpval n -> len_compat r2 (mp_len n) -> 0 < mp_len r2 ->
  mpval r2 = (mg_radix n * mg_radix n) mod mpval n -> mg_carry_ok n -> mg_room r n ->
  (forall r', becomes r r' ((mpval t * mg_radix n) mod mpval n) -> Q (Ok tt, r')) ->
  wp (ct_to_montgomery_form_mp r t n g r2) Q.
Proof.
  intros r t n g r2 Q Hr Ht Hn H2 HO HG C Ct Vt C2 L2 E2 HC HR HQ. destruct (odd_nlimbs n Hn HO) as [N0 NP]. pose proof (mp_len_nonneg n) as Ln.
  pose proof (mpval_nonneg t Ht) as T0. pf (Z.mod_pos_bound (mg_radix n * mg_radix n) (mpval n)) as RB.
  unfold ct_to_montgomery_form_mp.
  apply wp_bind, wp_compat; [auto|lia|auto|]. apply wp_mif; intros E; [discriminate|]. clear E.
  apply wp_bind, wp_compat; [auto|lia|auto|]. apply wp_mif; intros E; [discriminate|]. clear E.
  apply wp_bind, wp_dassert_lt; auto. apply wp_bind, wp_dassert_lt; auto; [lia|].
  pose proof B_gt. apply wp_mg_mul; auto; try lia.
  - unfold mg_carry_ok in HC. pf (mul_le_l B (mpval r2) (mpval n)). lia.
  - destruct HR as [HR|HR]; [auto|right]. pf (mul_le_l (mpval t) (mpval r2) (mpval n)). pf (mul_le_l (mpval n) (mpval t) (mpval n)). lia.
  - intros r' v HB (HV & HE). assert (EV : v = (mpval t * mg_radix n) mod mpval n).
    { rewrite <- (Z.mod_small v (mpval n)) by auto. apply radix_cancel; auto. rewrite HE, E2, Z.mul_mod_idemp_r by lia. f_equal. ring. }
    rewrite <- EV in HQ. auto.
Qed.

Lemma wp_exp : forall r op0 n e nbits s (Q : result unit mg_err * mp * mp * list Z -> Prop), mp_ok r -> mp_ok op0 -> mp_ok n -> mp_ok e -> mp_ok (NE s) ->
  Z.odd (mpval n) = true -> 2 <= nlimbs n -> len_compat n (mp_len r) -> len_compat op0 (mp_len n) -> mpval op0 < mpval n -> len_compat n (mp_len op0) ->
  ct_mp_nlimbs (mp_len n) <= zlen s -> 16 * (mp_len n + LB) + 8 < 2 ^ UW ->
  mg_carry_ok n -> mg_room r n -> mg_room (NE s) n -> 0 <= nbits ->
  (forall r' op0' s', becomes r r' (mpval op0 ^ (mpval e mod 2 ^ nbits) mod mpval n) -> mp_ok op0' -> same_shape op0 op0' -> mp_ok (NE s') -> zlen s' = zlen s -> Q (Ok tt, r', op0', s')) ->
  wp (ct_exp_mod_odd_mp_mp r op0 n e nbits s) Q.
Proof.
  intros r op0 n e nbits s Q Hr H0 Hn He Hs HO Hnn C C0 V0 C0' LS HU HC HR HRs Hb HQ.
  destruct (odd_nlimbs n Hn HO) as [N0 NP]. pose proof (mp_len_nonneg r) as Lr. pose proof (mp_len_nonneg n) as Ln. pose proof (mp_len_nonneg op0) as L0.
  destruct (compat_nlimbs op0 (mp_len n) H0 Ln C0) as [NN0 _]. fold (nlimbs n) in NN0.
  destruct (compat_nlimbs n (mp_len op0) Hn L0 C0') as [NN0' VN0]. fold (nlimbs op0) in NN0'.
  assert (LP0 : 0 < mp_len op0).
  { pose proof (nlimbs_spec op0). pose proof LB_pos. destruct (Z.eq_dec (mp_len op0) 0) as [E|E]; [|lia]. rewrite E in *.
    assert (nlimbs op0 * LB < 1 * LB) by lia. assert (nlimbs op0 < 1) by (apply (Z.mul_lt_mono_pos_r LB); lia). lia. }
  set (b := mpval op0) in *. pose proof (mpval_nonneg op0 H0) as B0. fold b in B0.
  unfold ct_exp_mod_odd_mp_mp.
  apply wp_bind, wp_compat; [auto|lia|auto|]. apply wp_mif; intros E; [discriminate|]. clear E.
  apply wp_bind, wp_compat; [auto|lia|auto|]. apply wp_mif; intros E; [discriminate|]. clear E.
  apply wp_bind, wp_dassert_lt; auto.
  apply wp_bind, wp_compat; [auto|lia|auto|]. apply wp_mif; intros E; [discriminate|]. clear E.
  apply wp_bind, wp_dassert; [apply Z.eqb_eq; lia|].
  apply wp_mif; intros E; [apply Z.ltb_lt in E; lia|]. clear E.
  apply wp_bind, wp_neg_inv; auto. intros g HG.
  apply wp_view with (K := fun full out => dassert (nlimbs out =? nlimbs n) ;; _); auto. intros rf r0 Of Sf O0 L1 K1 Nn NV HU0.
  apply wp_bind, wp_dassert; [apply Z.eqb_eq; auto|].
  pose proof (compat_view r r0 n Hn C L1 K1) as C1. pose proof (room_view r r0 n Hn C L1 K1 HR) as HR1.
  assert (LP1 : 0 < mp_len r0).
  { pose proof (nlimbs_spec r0). pose proof LB_pos. pose proof (mp_len_nonneg r0). destruct (Z.eq_dec (mp_len r0) 0) as [E|E]; [|lia]. rewrite E in *. lia. }
  apply wp_bind, wp_radix2; auto. intros r1 (O1 & S1 & E1). apply wp_bind. cbn [unwrap]. apply wp_ret.
  pf (Z.mod_pos_bound (mg_radix n * mg_radix n) (mpval n)) as RB.
  assert (VC : forall r', same_shape r0 r' -> mp_ok r' -> mpval r' < mpval n -> len_compat r' (mp_len n)).
  { intros r' S' O' V'. apply (view_compat r r' n (mpval r')); auto; [rewrite (shape_len _ _ S'); auto|destruct S' as [-> _]; auto]. }
  pose proof (scratch_compat s n Hn LS) as CS.
  apply wp_view with (r := NE s) (K := fun sf s0 => _); auto.
  intros sf s0 Of' Sf' Os L2 K2 N2 V2 HUs.
  apply wp_bind. apply wp_to_form; auto.
  { apply (compat_view (NE s)); auto. } { apply VC; auto. lia. } { rewrite (shape_len _ _ S1). auto. } { apply (room_view (NE s)); auto. }
  intros s1 (O2 & S2 & E2). fold b in E2. apply wp_bind. cbn [unwrap]. apply wp_ret.
  pf (Z.mod_pos_bound (b * mg_radix n) (mpval n)) as BB.
  apply wp_bind, wp_copy_from; [auto|auto|lia|]. intros op1 O3 S3 E3.
  destruct (HUs s1 (mpval s1)) as (O4 & [K4 L4] & _). { split; [auto|]. split; auto. }
  destruct (mp_unshrink sf s1) as [l|l|l]; try discriminate. cbn [mp_len] in L4. pose proof LB_pos as LP.
  assert (L5 : zlen l = zlen s) by (apply (Z.mul_reg_r _ _ LB); lia).
  assert (RP : 0 < mg_radix n) by (apply Bpow_pos; lia).
  assert (RL : forall r', same_shape r0 r' -> mp_ok r' -> mpval r' < mpval n -> len_compat r' (2 * mp_len n)).
  { intros r' S' O' V'. destruct (VC r' S' O' V') as [X|(X1 & X2 & X3)]; [left; lia|right]. split; [auto|]. split; [lia|].
    assert (256 ^ mp_len n <= 256 ^ (2 * mp_len n)) by (apply Z.pow_le_mono_r; lia). lia. }
  assert (TR : forall v, 0 <= v < mpval n -> v < mpval n * mg_radix n).
  { intros v Hv. pf (mul_le_l (mpval n) 1 (mg_radix n)). lia. }
  apply wp_bind. apply wp_redc; auto.
  { rewrite (shape_len _ _ S1). auto. } { apply RL; auto. lia. } { apply TR. lia. }
  intros r2 v2 (O5 & S5 & E5) HV2. apply wp_bind. cbn [unwrap]. apply wp_ret.
  assert (F2 : inform n 1 v2).
  { assert (EV : v2 = mg_radix n mod mpval n).
    { apply (redc_form n (mg_radix n) (mpval r1)); auto. rewrite E1. apply inform_intro; auto. }
    rewrite EV. replace (mg_radix n) with (1 * mg_radix n) by lia. apply inform_intro; auto. }
  rewrite <- E5 in F2. clear HV2 E5 v2. pose proof F2 as [V2' _].
  pose proof (shape_trans _ _ _ S1 S5) as S5'.
  apply wp_bind. apply wp_exp_loop with (b := b); auto; rewrite ?(shape_nlimbs _ _ S5'), ?(shape_len _ _ S5'); auto.
  { apply VC; auto. lia. }
  { rewrite L1. unfold shrunk_len. pf (align_rng (mp_len n)). destruct (supports_unaligned r); [lia|].
    rewrite !ct_align_spec by lia. rewrite !(Z.mul_comm _ LB). apply mul_le_l; [lia|]. apply nlimbs_len_mono. lia. }
  { lia. }
  { apply (shape_compat op0); auto. lia. }
  { rewrite (shape_len _ _ S3). auto. }
  { rewrite E3, E2. apply inform_intro; auto. }
  { apply (shape_room r0); auto. }
  { apply (shape_room (NE s)); auto. split; auto. }
  intros r3 v3 s3 (O6 & S6 & E6) F3 Os3 Ls3. pose proof F3 as [V3 _]. pose proof (shape_trans _ _ _ S5' S6) as S6'.
  apply wp_bind. apply wp_redc; auto.
  { rewrite (shape_len _ _ S6'). auto. } { apply RL; auto. lia. } { rewrite E6. apply TR. lia. }
  intros r4 v4 (O7 & S7 & E7) HV4. apply wp_bind. cbn [unwrap]. apply wp_ret.
  assert (EV : v4 = b ^ (mpval e mod 2 ^ nbits) mod mpval n).
  { apply (redc_form n _ (mpval r3)); auto. rewrite E6. auto. }
  apply wp_ret. apply HQ; auto; [|lia]. rewrite <- EV. apply HU0. split; [auto|]. split; [eapply shape_trans; eauto|auto].
Qed.
End S.

(** ** Statements *)
Lemma wp_ret_eq : forall A (m : M A) a, wp m (fun x => x = a) -> returns m a.
Proof. intros A m a H. apply wp_returns in H. destruct H as (r & H & ->). auto. Qed.

Lemma neg_inv_correct : forall (c : cfg) n, mp_ok n ->
  (Z.odd (mpval n) = true -> yields (ct_montgomery_neg_n0_inv_mod_l_mp n) (fun r => exists g, r = Ok g /\ neg_inv n g)) /\
  (Z.odd (mpval n) = false -> returns (ct_montgomery_neg_n0_inv_mod_l_mp n) (Err MgInvalidModulus)).
Proof.
  intros c n Hn. split; intros HO.
  - apply wp_yields, wp_neg_inv; eauto.
  - apply wp_ret_eq, wp_neg_inv_even; auto.
Qed.

Lemma reduced_unique : forall (c : cfg) n x v w, Z.odd (mpval n) = true -> mg_reduced n x v -> mg_reduced n x w -> v = w.
Proof.
  intros c n x v w HO (H1 & E1) (H2 & E2). rewrite <- (Z.mod_small v (mpval n)), <- (Z.mod_small w (mpval n)) by auto. apply radix_cancel; auto; lia.
Qed.

Lemma redc_correct : forall (c : cfg) t n g, mp_ok t -> mp_ok n -> Z.odd (mpval n) = true -> 2 <= nlimbs n ->
  neg_inv n g -> len_compat n (mp_len t) -> len_compat t (2 * mp_len n) -> mpval t < mpval n * mg_radix n ->
  yields (ct_montgomery_redc_mp t n g) (fun '(res, t') => res = Ok tt /\ exists v, becomes t t' v /\ mg_reduced n (mpval t) v).
Proof. intros. apply wp_yields, wp_redc; eauto. Qed.

Lemma even_prefix : forall (c : cfg) T n (K : Z -> M T) (Q : T -> Prop) e, mp_ok n -> Z.odd (mpval n) = false -> Q e ->
  wp (mif mp_is_empty n then ret e else let! n0 := load_l n 0 in let! even := ct_eq_l_l (Z.land n0 1) 0 in
      mif negb (lc_unwrap even =? 0) then ret e else K n0) Q.
Proof.
  intros c T n K Q e Hn HO HQ. pose proof (nlimbs_nonneg n).
  apply wp_mif; intros E; [apply wp_ret; auto|]. rewrite empty_nlimbs in E. apply Z.eqb_neq in E.
  apply wp_bind, wp_load; [auto|lia|]. rewrite limb_vlimb. apply wp_even; [auto|lia|]. rewrite HO, lc_unwrap_chc.
  apply wp_mif; intros E2; [apply wp_ret; auto|discriminate].
Qed.
Lemma odd_prefix : forall (c : cfg) T n (K : Z -> M T) (Q : T -> Prop) e, mp_ok n -> Z.odd (mpval n) = true -> wp (K (vlimb (mpval n) 0)) Q ->
  wp (mif mp_is_empty n then ret e else let! n0 := load_l n 0 in let! even := ct_eq_l_l (Z.land n0 1) 0 in
      mif negb (lc_unwrap even =? 0) then ret e else K n0) Q.
Proof.
  intros c T n K Q e Hn HO HQ. destruct (odd_nlimbs n Hn HO).
  apply wp_mif; intros E. { rewrite empty_nlimbs in E. apply Z.eqb_eq in E. lia. }
  apply wp_bind, wp_load; [auto|lia|]. rewrite limb_vlimb. apply wp_even; [auto|lia|]. rewrite HO, lc_unwrap_chc.
  apply wp_mif; intros E2; [discriminate|auto].
Qed.

Lemma redc_errors : forall (c : cfg) t n g, mp_ok t -> mp_ok n ->
  (Z.odd (mpval n) = false -> returns (ct_montgomery_redc_mp t n g) (Err MgInvalidModulus, t)) /\
  (Z.odd (mpval n) = true -> ~ len_compat n (mp_len t) -> returns (ct_montgomery_redc_mp t n g) (Err MgInsufficientResultSpace, t)) /\
  (Z.odd (mpval n) = true -> len_compat n (mp_len t) -> ~ len_compat t (2 * mp_len n) ->
     returns (ct_montgomery_redc_mp t n g) (Err MgInputValueOutOfRange, t)).
Proof.
  intros c t n g Ht Hn. pose proof (mp_len_nonneg t). pose proof (mp_len_nonneg n).
  split; [|split]; intros HO; [|intros C|intros C C2]; apply wp_ret_eq; [apply even_prefix; auto|apply odd_prefix; auto|apply odd_prefix; auto].
  - apply wp_bind, wp_compat_not; [auto|lia|auto|]. apply wp_mif; intros E; [apply wp_ret; auto|discriminate].
  - apply wp_bind, wp_compat; [auto|lia|auto|]. apply wp_mif; intros E; [discriminate|].
    apply wp_bind, wp_compat_not; [auto|lia|auto|]. apply wp_mif; intros E2; [apply wp_ret; auto|discriminate].
Qed.

Lemma mul_correct : forall (c : cfg) r op0 op1 n g, mp_ok r -> mp_ok op0 -> mp_ok op1 -> mp_ok n ->
  Z.odd (mpval n) = true -> neg_inv n g -> len_compat n (mp_len r) -> len_compat op0 (mp_len n) -> len_compat op1 (mp_len n) ->
  mpval op0 < mpval n -> mpval op1 < mpval n -> 0 < mp_len op1 ->
  B * mpval op1 + mpval n <= B * mg_radix n ->
  (same_bytes r n \/ mpval op0 * mpval op1 + mg_radix n * mpval n <= mg_radix n * 256 ^ Z.min (mp_len r) (mp_len n)) ->
  yields (ct_montgomery_mul_mod_mp_mp r op0 op1 n g) (fun '(res, r') =>
    res = Ok tt /\ exists v, becomes r r' v /\ mg_reduced n (mpval op0 * mpval op1) v).
Proof. intros. apply wp_yields, wp_mg_mul; eauto. Qed.

Lemma mul_errors : forall (c : cfg) r op0 op1 n g, mp_ok r -> mp_ok op0 -> mp_ok op1 -> mp_ok n ->
  (Z.odd (mpval n) = false -> returns (ct_montgomery_mul_mod_mp_mp r op0 op1 n g) (Err MgInvalidModulus, r)) /\
  (Z.odd (mpval n) = true -> ~ len_compat n (mp_len r) -> returns (ct_montgomery_mul_mod_mp_mp r op0 op1 n g) (Err MgInsufficientResultSpace, r)) /\
  (Z.odd (mpval n) = true -> len_compat n (mp_len r) -> ~ (len_compat op0 (mp_len n) /\ len_compat op1 (mp_len n)) ->
     returns (ct_montgomery_mul_mod_mp_mp r op0 op1 n g) (Err MgInconsistentOperandLengths, r)).
Proof.
  intros c r op0 op1 n g Hr H0 H1 Hn. pose proof (mp_len_nonneg r) as Lr. pose proof (mp_len_nonneg n) as Ln.
  split; [|split]; intros HO; [|intros C|intros C C2]; apply wp_ret_eq; [apply even_prefix; auto|apply odd_prefix; auto|apply odd_prefix; auto].
  - apply wp_bind, wp_compat_not; [auto|lia|auto|]. apply wp_mif; intros E; [apply wp_ret; auto|discriminate].
  - destruct (compat_nlimbs n (mp_len r) Hn Lr C) as [NN _]. fold (nlimbs r) in NN.
    apply wp_bind, wp_compat; [auto|lia|auto|]. apply wp_mif; intros E; [discriminate|]. clear E.
    apply wp_bind, wp_dassert; [apply Z.leb_le; auto|].
    assert (D : forall b, mp_ok b -> wp (len_is_compatible_with b (mp_len n)) (fun x => x = true -> len_compat b (mp_len n))).
    { intros b Hb. apply wp_len_compat; auto. intros x X1 _ _ ->. destruct (X1 eq_refl) as (HV & HL & HU).
      destruct (supports_unaligned b) eqn:U; [left; auto|right]. apply unal_KNE in U. auto. }
    apply wp_bind. eapply wp_mono; [apply D; auto|]. cbn beta. intros x0 X0. apply wp_bind.
    apply wp_mif; intros E.
    + unfold wp; cbn; auto.
    + apply negb_false_iff in E. apply wp_bind. eapply wp_mono; [apply D; auto|]. cbn beta. intros x1 X1. apply wp_ret.
      apply wp_mif; intros E2; [apply wp_ret; auto|]. apply negb_false_iff in E2. exfalso. auto.
Qed.

Lemma direct_correct : forall (c : cfg) t n, mp_ok t -> mp_ok n ->
  (Z.odd (mpval n) = true -> len_compat n (mp_len t) ->
     yields (ct_to_montgomery_form_direct_mp t n) (fun '(res, t') => res = Ok tt /\ becomes t t' ((mpval t * mg_radix n) mod mpval n))) /\
  (Z.odd (mpval n) = false -> returns (ct_to_montgomery_form_direct_mp t n) (Err MgInvalidModulus, t)) /\
  (Z.odd (mpval n) = true -> ~ len_compat n (mp_len t) -> returns (ct_to_montgomery_form_direct_mp t n) (Err MgInsufficientResultSpace, t)).
Proof.
  intros c t n Ht Hn. pose proof (mp_len_nonneg t). split; [|split].
  - intros. apply wp_yields, wp_to_form_direct; auto.
  - intros HO. apply wp_ret_eq. apply wp_bind, wp_test_bit; [auto|lia|]. rewrite Z.bit0_odd, HO, lc_unwrap_chc.
    apply wp_mif; intros E; [apply wp_ret; auto|discriminate].
  - intros HO C. apply wp_ret_eq. apply wp_bind, wp_test_bit; [auto|lia|]. rewrite Z.bit0_odd, HO, lc_unwrap_chc.
    apply wp_mif; intros E; [discriminate|]. apply wp_bind, wp_compat_not; [auto|lia|auto|]. apply wp_mif; intros E2; [apply wp_ret; auto|discriminate].
Qed.
Lemma radix2_correct : forall (c : cfg) r n, mp_ok r -> mp_ok n ->
  (Z.odd (mpval n) = true -> len_compat n (mp_len r) -> 16 * (mp_len n + LB) + 8 < 2 ^ UW ->
     yields (ct_montgomery_radix2_mod_n_mp r n) (fun '(res, r') => res = Ok tt /\ becomes r r' ((mg_radix n * mg_radix n) mod mpval n))) /\
  (Z.odd (mpval n) = false -> returns (ct_montgomery_radix2_mod_n_mp r n) (Err MgInvalidModulus, r)) /\
  (Z.odd (mpval n) = true -> ~ len_compat n (mp_len r) -> returns (ct_montgomery_radix2_mod_n_mp r n) (Err MgInsufficientResultSpace, r)).
Proof.
  intros c t n Ht Hn. pose proof (mp_len_nonneg t). split; [|split].
  - intros. apply wp_yields, wp_radix2; auto.
  - intros HO. apply wp_ret_eq. apply wp_bind, wp_test_bit; [auto|lia|]. rewrite Z.bit0_odd, HO, lc_unwrap_chc.
    apply wp_mif; intros E; [apply wp_ret; auto|discriminate].
  - intros HO C. apply wp_ret_eq. apply wp_bind, wp_test_bit; [auto|lia|]. rewrite Z.bit0_odd, HO, lc_unwrap_chc.
    apply wp_mif; intros E; [discriminate|]. apply wp_bind, wp_compat_not; [auto|lia|auto|]. apply wp_mif; intros E2; [apply wp_ret; auto|discriminate].
Qed.

Lemma to_form_correct : forall (c : cfg) r t n g r2, mp_ok r -> mp_ok t -> mp_ok n -> mp_ok r2 -> Z.odd (mpval n) = true -> neg_inv n g ->
  len_compat n (mp_len r) -> len_compat t (mp_len n) -> mpval t < mpval n -> len_compat r2 (mp_len n) -> 0 < mp_len r2 ->
  mpval r2 = (mg_radix n * mg_radix n) mod mpval n -> mg_carry_ok n -> mg_room r n ->
  yields (ct_to_montgomery_form_mp r t n g r2) (fun '(res, r') => res = Ok tt /\ becomes r r' ((mpval t * mg_radix n) mod mpval n)).
Proof. intros. apply wp_yields, wp_to_form; auto. Qed.
Lemma to_form_errors : forall (c : cfg) r t n g r2, mp_ok r -> mp_ok t -> mp_ok n -> mp_ok r2 ->
  (~ len_compat t (mp_len n) -> returns (ct_to_montgomery_form_mp r t n g r2) (Err MgInconsistentOperandLengths, r)) /\
  (len_compat t (mp_len n) -> ~ len_compat r2 (mp_len n) -> returns (ct_to_montgomery_form_mp r t n g r2) (Err MgInconsistentRadixLength, r)).
Proof.
  intros c r t n g r2 Hr Ht Hn H2. pose proof (mp_len_nonneg n). split; [intros C|intros C C2]; apply wp_ret_eq; unfold ct_to_montgomery_form_mp.
  - apply wp_bind, wp_compat_not; [auto|lia|auto|]. apply wp_mif; intros E; [apply wp_ret; auto|discriminate].
  - apply wp_bind, wp_compat; [auto|lia|auto|]. apply wp_mif; intros E; [discriminate|].
    apply wp_bind, wp_compat_not; [auto|lia|auto|]. apply wp_mif; intros E2; [apply wp_ret; auto|discriminate].
Qed.

(** Converting to Montgomery form and reducing gives the number back. *)
Lemma roundtrip_correct : forall (c : cfg) t n g, mp_ok t -> mp_ok n -> Z.odd (mpval n) = true -> 2 <= nlimbs n -> neg_inv n g ->
  len_compat n (mp_len t) -> mp_len t <= 2 * mp_len n ->
  yields (let! x := ct_to_montgomery_form_direct_mp t n in ct_montgomery_redc_mp (snd x) n g)
    (fun '(res, t') => res = Ok tt /\ becomes t t' (mpval t mod mpval n)).
Proof.
  intros c t n g Ht Hn HO Hnn HG C L. destruct (odd_nlimbs n Hn HO) as [N0 NP]. apply wp_yields. apply wp_bind, wp_to_form_direct; auto.
  intros t1 (O1 & S1 & E1). cbn [snd]. pf (Z.mod_pos_bound (mpval t * mg_radix n) (mpval n)) as MB.
  assert (RP : 0 < mg_radix n) by (apply Bpow_pos; lia).
  apply wp_redc; auto; [rewrite (shape_len _ _ S1); auto|left; rewrite (shape_len _ _ S1); auto|pf (mul_le_l (mpval n) 1 (mg_radix n)); lia|].
  intros t2 v (O2 & S2 & E2) HV. split; [auto|]. split; [auto|]. split; [eapply shape_trans; eauto|]. rewrite E2.
  apply (redc_form n _ (mpval t1)); auto. rewrite E1. apply inform_intro; auto.
Qed.

Lemma mexp_correct : forall (c : cfg) r op0 n g radix e nbits s b, mp_ok r -> mp_ok op0 -> mp_ok n -> mp_ok radix -> mp_ok e -> mp_ok (NE s) ->
  Z.odd (mpval n) = true -> neg_inv n g -> len_compat n (mp_len r) -> nlimbs n <= zlen s ->
  len_compat op0 (mp_len n) -> 0 < mp_len op0 -> mpval op0 = (b * mg_radix n) mod mpval n ->
  len_compat radix (mp_len n) -> mpval radix = mg_radix n mod mpval n ->
  mg_carry_ok n -> mg_room r n -> mg_room (NE s) n -> 0 <= nbits ->
  yields (ct_montgomery_exp_mod_odd_mp_mp r op0 n g radix e nbits s) (fun '(res, r', s') =>
    res = Ok tt /\ becomes r r' ((b ^ (mpval e mod 2 ^ nbits) * mg_radix n) mod mpval n) /\ zlen s' = zlen s).
Proof. intros. apply wp_yields, wp_montgomery_exp with (b := b); auto. Qed.

Lemma exp_correct : forall (c : cfg) r op0 n e nbits s, mp_ok r -> mp_ok op0 -> mp_ok n -> mp_ok e -> mp_ok (NE s) ->
  Z.odd (mpval n) = true -> 2 <= nlimbs n -> len_compat n (mp_len r) -> len_compat op0 (mp_len n) -> mpval op0 < mpval n -> len_compat n (mp_len op0) ->
  nlimbs n <= zlen s -> 16 * (mp_len n + LB) + 8 < 2 ^ UW ->
  mg_carry_ok n -> mg_room r n -> mg_room (NE s) n -> 0 <= nbits ->
  yields (ct_exp_mod_odd_mp_mp r op0 n e nbits s) (fun '(res, r', op0', s') =>
    res = Ok tt /\ becomes r r' (mpval op0 ^ (mpval e mod 2 ^ nbits) mod mpval n) /\ mp_ok op0' /\ same_shape op0 op0' /\ zlen s' = zlen s).
Proof. intros. apply wp_yields, wp_exp; auto. Qed.

Lemma exp_errors : forall (c : cfg) r op0 n e nbits s, mp_ok r -> mp_ok op0 -> mp_ok n ->
  let call := ct_exp_mod_odd_mp_mp r op0 n e nbits s in
  (~ len_compat n (mp_len r) -> returns call (Err MgInsufficientResultSpace, r, op0, s)) /\
  (len_compat n (mp_len r) -> ~ len_compat op0 (mp_len n) -> returns call (Err MgInconsistentOperandLengths, r, op0, s)) /\
  (len_compat n (mp_len r) -> len_compat op0 (mp_len n) -> mpval op0 < mpval n -> ~ len_compat n (mp_len op0) ->
     returns call (Err MgInconsistentOperandLengths, r, op0, s)) /\
  (len_compat n (mp_len r) -> len_compat op0 (mp_len n) -> mpval op0 < mpval n -> len_compat n (mp_len op0) -> zlen s < nlimbs n ->
     returns call (Err MgInsufficientScratchSpace, r, op0, s)) /\
  (len_compat n (mp_len r) -> len_compat op0 (mp_len n) -> mpval op0 < mpval n -> len_compat n (mp_len op0) -> nlimbs n <= zlen s ->
     Z.odd (mpval n) = false -> returns call (Err MgInvalidModulus, r, op0, s)).
Proof.
  intros c r op0 n e nbits s Hr H0 Hn. cbv zeta. pose proof (mp_len_nonneg r) as Lr. pose proof (mp_len_nonneg n) as Ln. pose proof (mp_len_nonneg op0) as L0.
  assert (EQ : len_compat op0 (mp_len n) -> len_compat n (mp_len op0) -> nlimbs op0 = nlimbs n).
  { intros C1 C2. destruct (compat_nlimbs op0 (mp_len n) H0 Ln C1) as [X1 _]. destruct (compat_nlimbs n (mp_len op0) Hn L0 C2) as [X2 _]. fold (nlimbs n) in X1. fold (nlimbs op0) in X2. lia. }
  repeat split; intros; apply wp_ret_eq; unfold ct_exp_mod_odd_mp_mp.
  - apply wp_bind, wp_compat_not; [auto|lia|auto|]. apply wp_mif; intros E; [apply wp_ret; auto|discriminate].
  - apply wp_bind, wp_compat; [auto|lia|auto|]. apply wp_mif; intros E; [discriminate|].
    apply wp_bind, wp_compat_not; [auto|lia|auto|]. apply wp_mif; intros E2; [apply wp_ret; auto|discriminate].
  - apply wp_bind, wp_compat; [auto|lia|auto|]. apply wp_mif; intros E; [discriminate|].
    apply wp_bind, wp_compat; [auto|lia|auto|]. apply wp_mif; intros E2; [discriminate|].
    apply wp_bind, wp_dassert_lt; auto.
    apply wp_bind, wp_compat_not; [auto|lia|auto|]. apply wp_mif; intros E3; [apply wp_ret; auto|discriminate].
  - apply wp_bind, wp_compat; [auto|lia|auto|]. apply wp_mif; intros E; [discriminate|].
    apply wp_bind, wp_compat; [auto|lia|auto|]. apply wp_mif; intros E2; [discriminate|].
    apply wp_bind, wp_dassert_lt; auto.
    apply wp_bind, wp_compat; [auto|lia|auto|]. apply wp_mif; intros E3; [discriminate|].
    apply wp_bind, wp_dassert; [apply Z.eqb_eq; auto|].
    apply wp_mif; intros E4; [apply wp_ret; auto|]. apply Z.ltb_ge in E4. unfold nlimbs in *. lia.
  - apply wp_bind, wp_compat; [auto|lia|auto|]. apply wp_mif; intros E; [discriminate|].
    apply wp_bind, wp_compat; [auto|lia|auto|]. apply wp_mif; intros E2; [discriminate|].
    apply wp_bind, wp_dassert_lt; auto.
    apply wp_bind, wp_compat; [auto|lia|auto|]. apply wp_mif; intros E3; [discriminate|].
    apply wp_bind, wp_dassert; [apply Z.eqb_eq; auto|].
    apply wp_mif; intros E4; [apply Z.ltb_lt in E4; unfold nlimbs in *; lia|].
    apply wp_bind, wp_neg_inv_even; auto. apply wp_ret. auto.
Qed.
