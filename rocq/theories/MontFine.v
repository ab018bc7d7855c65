(** Montgomery multiplication and exponentiation for any odd modulus: nothing ever panics, results are residues, and they are
    the right ones if no product they depend on loses a carry. *)
From Coq Require Import ZArith Znumtheory List Bool Lia.
Require Import Verif.Spec Verif.Base Verif.Monad Verif.Wp Verif.Pan Verif.Wx Verif.ModelLimb Verif.LimbFacts Verif.LimbFacts2
  Verif.ModelBuf Verif.SpecBuf Verif.BufFacts Verif.BufFacts2 Verif.BufFacts3 Verif.BufProofs Verif.UpFacts Verif.ModelCmp Verif.CmpFacts
  Verif.ModelAdd Verif.AddFacts Verif.AddFacts2 Verif.ModelDiv Verif.SpecDiv Verif.DivFacts4 Verif.DivProofs Verif.DivProofs2 Verif.SpecMont Verif.SpecMontValue Verif.ModelMont Verif.MontFacts Verif.MontFacts2 Verif.MontFacts3 Verif.MontFacts4 Verif.MontFacts5 Verif.MontFacts6 Verif.MontExact Verif.MontProofs.
Import ListNotations.
Open Scope Z_scope.

Section Facts.
Context {c : cfg}.

(** [v] is a residue and, if [P], the Montgomery form of [x]. *)
Definition pform (P : Prop) (n : mp) (x v : Z) : Prop := 0 <= v < mpval n /\ (P -> inform n x v).

Lemma fine_not_lost : forall op0 op1 n, mg_fine n (mpval op0) (mpval op1) -> mg_no_carry_lost op0 op1 n.
Proof. intros op0 op1 n H i M s Hi HM HS. apply (H i M s); auto. lia. Qed.

Lemma room_fits : forall r op0 op1 n, mp_ok op0 -> mp_ok op1 -> 0 < mg_radix n -> mpval op0 < mpval n -> mpval op1 < mpval n -> mg_room r n -> mg_sum_fits r op0 op1 n.
Proof.
  intros r op0 op1 n H0 H1 RP V0 V1 [H|H]; [left; auto|right]. intros M s HM HS. pose proof (mpval_nonneg op0 H0) as P0. pose proof (mpval_nonneg op1 H1) as P1.
  apply (Z.mul_lt_mono_pos_l (mg_radix n)); [auto|]. rewrite HS. eapply Z.lt_le_trans; [|exact H].
  pf (mul_le_l (mpval op0) (mpval op1) (mpval n)). pf (mul_le_l (mpval n) (mpval op0) (mpval n)). assert (M * mpval n < mg_radix n * mpval n) by (apply Z.mul_lt_mono_pos_r; lia). lia.
Qed.

Lemma neg_inv_unique : forall n g g', Z.odd (mpval n) = true -> neg_inv n g -> neg_inv n g' -> g = g'.
Proof.
  intros n g g' HO [R1 H1] [R2 H2]. pose proof B_pos as BP. apply Z.mod_divide in H1, H2; try lia.
  assert (D : (B | mpval n * (g - g'))) by (destruct H1 as [q1 H1], H2 as [q2 H2]; exists (q1 - q2); lia).
  apply Gauss in D; [|apply Zgcd_1_rel_prime; rewrite Z.gcd_comm; replace B with (B ^ 1) by apply Z.pow_1_r; apply Bpow_coprime; auto; lia].
  destruct D as [q D]. assert (-1 < q < 1) by (split; apply (Z.mul_lt_mono_pos_r B); lia). lia.
Qed.

(** Multiplication of any two residues. *)
Lemma wp_mul_any : forall r op0 op1 n g (Q : Monad.result unit mg_err * mp -> Prop), mp_ok r -> mp_ok op0 -> mp_ok op1 -> mp_ok n ->
  Z.odd (mpval n) = true -> neg_inv n g -> len_compat n (mp_len r) -> len_compat op0 (mp_len n) -> len_compat op1 (mp_len n) ->
  mpval op0 < mpval n -> mpval op1 < mpval n -> 0 < mp_len op1 -> mg_room r n ->
  (forall r' v, becomes r r' v -> 0 <= v < mpval n -> (mg_no_carry_lost op0 op1 n <-> mg_reduced n (mpval op0 * mpval op1) v) -> v = mg_product n g (mpval op0) (mpval op1) -> Q (Ok tt, r')) ->
  wp (ct_montgomery_mul_mod_mp_mp r op0 op1 n g) Q.
Proof.
  intros r op0 op1 n g Q Hr H0 H1 Hn HO HG C C0 C1 V0 V1 L1 HR HQ.
  destruct (odd_nlimbs n Hn HO) as [N0 NP]. assert (RP : 0 < mg_radix n) by (apply Bpow_pos; lia).
  pose proof (same_bytes_len r n Hn C) as SB. destruct (shrunk_n r n Hn C) as (_ & SL & _).
  pose proof (room_fits r op0 op1 n H0 H1 RP V0 V1 HR) as SF.
  apply wp_wx. apply wx_mg_mul; auto.
  { intros _. left. pose proof (nlimbs_spec op1). pose proof (nlimbs_nonneg op1). pose proof LB_pos. destruct (Z.eq_dec (nlimbs op1) 0) as [E'|E']; [rewrite E' in *; lia|lia]. }
  intros rf r0 t1 cy sh M F p Of Sf Ef O0 K0 L0 NV0 Nr Np Hp O1 S1 Hcy Hsh HA HM F0 FB FK FL EQ AV.
  set (A := acc t1 p sh cy) in *.
  assert (N1 : nlimbs t1 = p + 1) by (rewrite (shape_nlimbs _ _ S1); lia).
  assert (FIT : mp_len n = mp_len r0 \/ (A < 256 ^ mp_len n /\ A < 256 ^ mp_len r0)).
  { destruct (Z.eq_dec (mp_len n) (mp_len r0)) as [EL|NL]; [left; auto|right].
    assert (NS : ~ same_bytes r n) by (intros X; apply NL; rewrite L0; symmetry; apply SB; auto).
    assert (F = 0).
    { destruct (Z.eq_dec F 0); auto. exfalso. apply NS. apply SB. rewrite <- L0. apply (lost_same_bytes n (mp_len r0) p); auto; [fold (nlimbs r0); lia|apply mp_len_nonneg|].
      assert (FP : 0 < F) by lia. specialize (FL FP). pose proof B_gt as BG. pf (mul_le_l B (mpval op1) (mpval n)). lia. }
    subst F. destruct SF as [X|X]; [contradiction|]. specialize (X M A HM). lapply X; [clear X; intros X|lia].
    split; (eapply Z.lt_le_trans; [exact X|]; apply Z.pow_le_mono_r; lia). }
  apply wx_bind, wp_mg_finish with (A := A); auto; try lia; [rewrite (shape_len _ _ S1); auto|rewrite (shape_len _ _ S1); auto|].
  intros t2 HB2. apply wx_ret. apply (HQ _ (A mod mpval n)).
  - apply (becomes_unshrink r rf r0 t1); auto. lia.
  - apply Z.mod_pos_bound; lia.
  - split.
    + intros FI. apply FK in FI. subst F. apply mg_reduced_mod with M; auto. lia.
    + intros [_ X]. apply FK. destruct (Z.eq_dec F 0) as [|E]; [auto|exfalso]. assert (FP : 0 < F) by lia.
      rewrite Z.mul_mod_idemp_l in X by lia. pose proof (mpval_nonneg op0 H0) as P0. pose proof (mpval_nonneg op1 H1) as P1.
      apply (lost_wrong (mpval n) (mg_radix n) (mpval op1) (nlimbs n) F A (mpval op0 * mpval op1) M); auto; lia.
  - unfold mg_product. rewrite <- AV. reflexivity.
Qed.

(** Multiplication in Montgomery form. *)
Lemma wp_mul_pform : forall (P : Prop) r op0 op1 n g x y (Q : Monad.result unit mg_err * mp -> Prop), mp_ok r -> mp_ok op0 -> mp_ok op1 -> mp_ok n ->
  Z.odd (mpval n) = true -> neg_inv n g -> len_compat n (mp_len r) -> len_compat op0 (mp_len n) -> len_compat op1 (mp_len n) ->
  pform P n x (mpval op0) -> pform P n y (mpval op1) -> 0 < mp_len op1 -> mg_room r n ->
  forall P' : Prop, (P' -> P /\ mg_fine n (mg_form n x) (mg_form n y)) ->
  (forall r' v, becomes r r' v -> pform P' n (x * y) v -> v = mg_product n g (mpval op0) (mpval op1) -> Q (Ok tt, r')) ->
  wp (ct_montgomery_mul_mod_mp_mp r op0 op1 n g) Q.
Proof.
  intros P r op0 op1 n g x y Q Hr H0 H1 Hn HO HG C C0 C1 F0 F1 L1 HR P' HP HQ. destruct (odd_nlimbs n Hn HO) as [N0 NP].
  pose proof F0 as [V0 I0]. pose proof F1 as [V1 I1]. apply wp_mul_any; auto; try lia.
  intros r' v HB HV HF HE. apply (HQ r' v); auto. split; [auto|]. intros X. destruct (HP X) as [X1 X2].
  apply reduced_inform with (a := mpval op0) (b := mpval op1); auto. apply HF, fine_not_lost. rewrite (inform_unique _ _ _ (I0 X1)), (inform_unique _ _ _ (I1 X1)). auto.
Qed.

Lemma wp_exp_ploop : forall (P : Prop) r op0 n g e nbits s b (Q : mp * list Z -> Prop), mp_ok r -> mp_ok op0 -> mp_ok n -> mp_ok e -> mp_ok (NE s) ->
  Z.odd (mpval n) = true -> neg_inv n g -> nlimbs r = nlimbs n -> len_compat n (mp_len r) -> len_compat r (mp_len n) -> mpval n < 256 ^ mp_len r ->
  mp_len r <= ct_mp_limbs_align_len (mp_len n) -> ct_mp_nlimbs (mp_len n) <= zlen s ->
  len_compat op0 (mp_len n) -> 0 < mp_len op0 -> pform P n b (mpval op0) -> pform P n 1 (mpval r) ->
  (P -> mg_exp_fine n b (mpval e mod 2 ^ nbits) nbits) -> mg_room r n -> mg_room (NE s) n -> 0 <= nbits ->
  (forall r' v s', becomes r r' v -> pform P n (b ^ (mpval e mod 2 ^ nbits)) v -> v = mg_power n g (mpval op0) (mpval e) (mpval r) (Z.to_nat (Z.min nbits (8 * mp_len e))) -> mp_ok (NE s') -> zlen s' = zlen s -> Q (r', s')) ->
  wp (mg_exp_loop r op0 n g e nbits s) Q.
Proof.
  intros P r op0 n g e nbits s b Q Hr H0 Hn He Hs HO HG Nr C C' NV LA LS C0 L0 F0 F1 HC HR HRs Hb HQ.
  destruct (odd_nlimbs n Hn HO) as [N0 NP]. pose proof LB_pos as LP.
  unfold mg_exp_loop. apply wp_bind, wp_dassert; [apply Z.eqb_eq; auto|]. apply wp_bind, wp_dassert; [apply Z.leb_le; auto|].
  apply wp_view with (r := NE s) (K := fun sf s0 => _); auto; [apply scratch_compat; auto|].
  intros sf s0 Of Sf Os L1 K1 N1 V1 HU. pose proof (scratch_view s n s0 Hn LS L1) as L2.
  pose proof (align_rng (mp_len n) (mp_len_nonneg n)) as AR.
  pose proof (scratch_compat s n Hn LS) as CS.
  pose proof (compat_view (NE s) s0 n Hn CS L1 K1) as C1.
  pose proof (room_view (NE s) s0 n Hn CS L1 K1 HRs) as HR1.
  assert (CS' : forall s1, same_shape s0 s1 -> mp_ok s1 -> mpval s1 < mpval n -> len_compat s1 (mp_len n)).
  { intros s1 S1 O1 V. destruct S1 as [K L]. pose proof (mpval_bound n Hn). right. split; [rewrite K, K1; auto|]. split; lia. }
  assert (LR : 0 < mp_len r).
  { pose proof (nlimbs_spec r). pose proof (mp_len_nonneg r). destruct (Z.eq_dec (mp_len r) 0) as [E|E]; [|lia]. rewrite E in *. lia. }
  set (k := Z.min nbits (8 * mp_len e)). pose proof (mp_len_nonneg e) as Le. assert (Hk : 0 <= k) by lia.
  assert (EK : mpval e mod 2 ^ nbits = mpval e mod 2 ^ k).
  { unfold k. destruct (Z.min_spec nbits (8 * mp_len e)) as [[? ->]|[? ->]]; auto. pose proof (mpval_bound e He) as BE.
    rewrite pow256 in BE by lia. assert (2 ^ (8 * mp_len e) <= 2 ^ nbits) by (apply Z.pow_le_mono_r; lia). rewrite !Z.mod_small; lia. }
  set (E := mpval e mod 2 ^ k) in *. pf (pow2_gt0 k) as PK. pf (Z.mod_pos_bound (mpval e) (2 ^ k)) as EB. fold E in EB.
  apply wp_bind. apply wp_for with (I := fun i '(r', s') => mp_ok r' /\ same_shape r r' /\ mp_ok s' /\ same_shape s0 s' /\ pform P n (b ^ (E / 2 ^ (k - i))) (mpval r') /\ mg_power n g (mpval op0) (mpval e) (mpval r') (Z.to_nat (k - i)) = mg_power n g (mpval op0) (mpval e) (mpval r) (Z.to_nat k)); [auto| | |].
  { split; [auto|]. split; [apply shape_refl|]. split; [auto|]. split; [apply shape_refl|]. rewrite Z.sub_0_r, Z.div_small by auto. auto. }
  { intros i (r1, s1) Hi (O1 & S1 & O2 & S2 & F & EP). pose proof F as [RV _].
    assert (FI : P -> mg_fine n (mg_form n (b ^ (E / 2 ^ (k - i)))) (mg_form n (b ^ (E / 2 ^ (k - i)))) /\
      (Z.testbit (mpval e) (k - i - 1) = true -> mg_fine n (mg_form n (b ^ (E / 2 ^ (k - i)) * b ^ (E / 2 ^ (k - i)))) (mg_form n b))).
    { intros X. specialize (HC X (k - i - 1)). lapply HC; [clear HC; intros HC|unfold k in *; lia]. rewrite EK in HC. replace (k - i - 1 + 1) with (k - i) in HC by lia.
      assert (TB : Z.testbit E (k - i - 1) = Z.testbit (mpval e) (k - i - 1)) by (apply Z.mod_pow2_bits_low; lia). rewrite TB in HC.
      assert (Hq : 0 <= E / 2 ^ (k - i)) by (apply Z.div_pos; [lia|apply pow2_gt0; lia]).
      replace (2 * (E / 2 ^ (k - i))) with (E / 2 ^ (k - i) + E / 2 ^ (k - i)) in HC by lia. rewrite Z.pow_add_r in HC by lia. exact HC. }
    apply wp_bind. apply wp_mul_pform with (P := P) (P' := P) (x := b ^ (E / 2 ^ (k - i))) (y := b ^ (E / 2 ^ (k - i))); auto; try (rewrite ?(shape_len _ _ S1), ?(shape_len _ _ S2); auto).
    { apply (shape_compat r); auto. lia. } { apply (shape_compat r); auto. lia. } { apply (shape_room s0); auto. } { intros X. split; [auto|apply FI; auto]. }
    intros s2 vs (O3 & S3 & E3) F3 EV3. rewrite <- E3 in F3, EV3. clear vs E3. apply wp_bind. cbn [unwrap]. apply wp_ret. pose proof F3 as [SV _].
    pose proof (shape_trans _ _ _ S2 S3) as S3'.
    apply wp_bind. eapply wp_mul_pform with (P := P) (P' := P /\ Z.testbit (mpval e) (k - i - 1) = true) (y := b); [exact O1|exact O3|exact H0|auto|auto|auto| | |auto|exact F3|auto|auto| | |].
    { rewrite (shape_len _ _ S1). auto. } { apply CS'; auto. lia. } { apply (shape_room r); auto. } { intros [X1 X2]. split; [auto|apply FI; auto]. }
    intros r2 vr (O4 & S4 & E4) F4 EV4. rewrite <- E4 in F4, EV4. clear vr E4. apply wp_bind. cbn [unwrap]. apply wp_ret. pose proof F4 as [RV4 _].
    pose proof (shape_trans _ _ _ S1 S4) as S4'.
    apply wp_bind, wp_test_bit; [auto|lia|]. rewrite lc_not_chc.
    apply wp_bind, wp_copy_from_cond; [auto|auto|rewrite (shape_len _ _ S4'); lia|right; rewrite (shape_len _ _ S4'), (shape_len _ _ S3'); lia|].
    intros r3 O5 S5 E5. apply wp_ret. split; [auto|]. split; [eapply shape_trans; eauto|]. split; [auto|]. split; [auto|].
    split.
    2:{ rewrite <- EP. replace (Z.to_nat (k - i)) with (S (Z.to_nat (k - i - 1))) by lia. cbn [mg_power]. rewrite Z2Nat.id by lia. replace (k - (i + 1)) with (k - i - 1) by lia.
        f_equal. rewrite E5. unfold mg_power_step. cbv zeta. rewrite <- EV3, <- EV4. destruct (Z.testbit (mpval e) (k - i - 1)); reflexivity. }
    rewrite E5. unfold E. rewrite exp_bit by auto. fold E. set (q := E / 2 ^ (k - i)) in *.
    assert (Hq : 0 <= q) by (apply Z.div_pos; [lia|apply pow2_gt0; lia]).
    destruct (Z.testbit (mpval e) (k - i - 1)); cbn [negb b2z].
    - rewrite Z.pow_add_r, Z.pow_1_r by lia. replace (2 * q) with (q + q) by lia. rewrite Z.pow_add_r by lia. destruct F4 as [F4 F5]. split; auto.
    - rewrite Z.add_0_r. replace (2 * q) with (q + q) by lia. rewrite Z.pow_add_r by lia. auto. }
  intros (r1, s1) (O1 & S1 & O2 & S2 & F & EP). rewrite Z.sub_diag in F, EP. change (2 ^ 0) with 1 in F. rewrite Z.div_1_r in F.
  destruct (HU s1 (mpval s1)) as (O3 & [K3 L3] & _). { split; [auto|]. split; auto. }
  destruct (mp_unshrink sf s1) as [l|l|l]; try discriminate. cbn [mp_len] in L3. apply wp_ret.
  apply (HQ _ (mpval r1)); auto.
  - split; [auto|]. split; auto.
  - rewrite EK. auto.
  - apply (Z.mul_reg_r _ _ LB); lia.
Qed.

Lemma wp_montgomery_pexp : forall r op0 n g radix e nbits s b (Q : result unit mg_err * mp * list Z -> Prop), mp_ok r -> mp_ok op0 -> mp_ok n -> mp_ok radix -> mp_ok e -> mp_ok (NE s) ->
  Z.odd (mpval n) = true -> neg_inv n g -> len_compat n (mp_len r) -> ct_mp_nlimbs (mp_len n) <= zlen s ->
  len_compat op0 (mp_len n) -> 0 < mp_len op0 -> mpval op0 = (b * mg_radix n) mod mpval n ->
  len_compat radix (mp_len n) -> mpval radix = mg_radix n mod mpval n ->
  mg_room r n -> mg_room (NE s) n -> 0 <= nbits ->
  (forall r' v s', becomes r r' v -> 0 <= v < mpval n -> (mg_exp_fine n b (mpval e mod 2 ^ nbits) nbits -> v = (b ^ (mpval e mod 2 ^ nbits) * mg_radix n) mod mpval n) ->
     v = mg_power n g (mpval op0) (mpval e) (mg_radix n mod mpval n) (Z.to_nat (Z.min nbits (8 * mp_len e))) -> mp_ok (NE s') -> zlen s' = zlen s -> Q (Ok tt, r', s')) ->
  wp (ct_montgomery_exp_mod_odd_mp_mp r op0 n g radix e nbits s) Q.
Proof.
  intros r op0 n g radix e nbits s b Q Hr H0 Hn Hra He Hs HO HG C LS C0 L0 F0 Cr Fr HR HRs Hb HQ.
  destruct (odd_nlimbs n Hn HO) as [N0 NP]. pose proof (mp_len_nonneg r) as Lr. pose proof (mp_len_nonneg n) as Ln.
  assert (V0 : mpval op0 < mpval n) by (rewrite F0; apply Z.mod_pos_bound; auto).
  assert (Vr : mpval radix < mpval n) by (rewrite Fr; apply Z.mod_pos_bound; auto).
  unfold ct_montgomery_exp_mod_odd_mp_mp. apply wp_bind, wp_test_bit; [auto|lia|]. rewrite Z.bit0_odd, HO, lc_unwrap_chc.
  apply wp_mif; intros E; [discriminate|]. clear E.
  apply wp_bind, wp_compat; [auto|lia|auto|]. apply wp_mif; intros E; [discriminate|]. clear E.
  apply wp_mif; intros E; [apply Z.ltb_lt in E; lia|]. clear E.
  apply wp_bind, wp_compat; [auto|lia|auto|]. apply wp_mif; intros E; [discriminate|]. clear E.
  apply wp_bind, wp_dassert_lt; auto.
  apply wp_bind, wp_compat; [auto|lia|auto|]. apply wp_mif; intros E; [discriminate|]. clear E.
  apply wp_bind, wp_dassert_lt; auto.
  apply wp_view with (K := fun full out => dassert (nlimbs out =? nlimbs n) ;; _); auto. intros rf r0 Of Sf O0 L1 K1 Nn NV HU0.
  apply wp_bind, wp_dassert; [apply Z.eqb_eq; auto|].
  apply wp_bind, wp_copy_from; [auto|auto|lia|]. intros r1 O1 S1 E1.
  assert (L2 : mp_len r1 = shrunk_len r (mp_len n)) by (rewrite (shape_len _ _ S1); auto).
  assert (K2 : kind_of r1 = kind_of r) by (destruct S1 as [-> _]; auto).
  apply wp_bind. apply wp_exp_ploop with (P := mg_exp_fine n b (mpval e mod 2 ^ nbits) nbits) (b := b); auto.
  - rewrite (shape_nlimbs _ _ S1). auto.
  - apply (compat_view r); auto.
  - apply (view_compat r r1 n (mpval r1)); auto. lia.
  - rewrite (shape_len _ _ S1). auto.
  - rewrite L2. unfold shrunk_len. pose proof LB_pos. pf (align_rng (mp_len n)). destruct (supports_unaligned r); [lia|].
    rewrite !ct_align_spec by lia. rewrite !(Z.mul_comm _ LB). apply mul_le_l; [lia|]. apply nlimbs_len_mono. lia.
  - rewrite F0. pose proof (inform_intro n b NP) as X. split; [apply X|auto].
  - rewrite E1, Fr. replace (mg_radix n) with (1 * mg_radix n) by lia. pose proof (inform_intro n 1 NP) as X. split; [apply X|auto].
  - apply (room_view r); auto.
  - intros r2 v s' (O2 & S2 & E2) F2 EV Os' Ls'. rewrite E1, Fr in EV. apply wp_ret. destruct F2 as [F2 F3]. apply (HQ _ v); auto.
    + apply HU0. split; [auto|]. split; [eapply shape_trans; eauto|auto].
    + intros X. apply inform_unique. auto.
Qed.


Lemma wp_to_pform : forall r t n g r2 (Q : result unit mg_err * mp -> Prop), mp_ok r -> mp_ok t -> mp_ok n -> mp_ok r2 -> Z.odd (mpval n) = true -> neg_inv n g ->
  len_compat n (mp_len r) -> len_compat t (mp_len n) -> mpval t < mpval n -> len_compat r2 (mp_len n) -> 0 < mp_len r2 ->
  mpval r2 = (mg_radix n * mg_radix n) mod mpval n -> mg_room r n ->
  (forall r' v, becomes r r' v -> 0 <= v < mpval n -> (mg_no_carry_lost t r2 n <-> v = (mpval t * mg_radix n) mod mpval n) -> v = mg_product n g (mpval t) ((mg_radix n * mg_radix n) mod mpval n) -> Q (Ok tt, r')) ->
  wp (ct_to_montgomery_form_mp r t n g r2) Q.
Proof.
  intros r t n g r2 Q Hr Ht Hn H2 HO HG C Ct Vt C2 L2 E2 HR HQ. destruct (odd_nlimbs n Hn HO) as [N0 NP]. pose proof (mp_len_nonneg n) as Ln.
  pose proof (mpval_nonneg t Ht) as T0. pf (Z.mod_pos_bound (mg_radix n * mg_radix n) (mpval n)) as RB.
  unfold ct_to_montgomery_form_mp.
  apply wp_bind, wp_compat; [auto|lia|auto|]. apply wp_mif; intros E; [discriminate|]. clear E.
  apply wp_bind, wp_compat; [auto|lia|auto|]. apply wp_mif; intros E; [discriminate|]. clear E.
  apply wp_bind, wp_dassert_lt; auto. apply wp_bind, wp_dassert_lt; auto; [lia|].
  apply wp_mul_any; auto; try lia.
  intros r' v HB HV HF HE. rewrite E2 in HE. apply (HQ r' v); auto. rewrite HF. split.
  2:{ intros ->. split; [auto|]. rewrite Z.mul_mod_idemp_l, E2, Z.mul_mod_idemp_r by lia. f_equal. ring. }
  intros (_ & HE'). rewrite <- (Z.mod_small v (mpval n)) by auto. apply radix_cancel; auto. rewrite HE', E2, Z.mul_mod_idemp_r by lia. f_equal. ring.
Qed.


Lemma wp_pexp : forall r op0 n e nbits s (Q : result unit mg_err * mp * mp * list Z -> Prop), mp_ok r -> mp_ok op0 -> mp_ok n -> mp_ok e -> mp_ok (NE s) ->
  Z.odd (mpval n) = true -> 2 <= nlimbs n -> len_compat n (mp_len r) -> len_compat op0 (mp_len n) -> mpval op0 < mpval n -> len_compat n (mp_len op0) ->
  ct_mp_nlimbs (mp_len n) <= zlen s -> 16 * (mp_len n + LB) + 8 < 2 ^ UW ->
  mg_room r n -> mg_room (NE s) n -> 0 <= nbits ->
  (forall r' v op0' s', becomes r r' v -> 0 <= v < mpval n ->
     (mg_fine n (mpval op0) ((mg_radix n * mg_radix n) mod mpval n) -> mg_exp_fine n (mpval op0) (mpval e mod 2 ^ nbits) nbits -> v = mpval op0 ^ (mpval e mod 2 ^ nbits) mod mpval n) ->
     (forall g, neg_inv n g -> mg_reduced n (mg_power n g (mg_product n g (mpval op0) ((mg_radix n * mg_radix n) mod mpval n)) (mpval e) (mg_radix n mod mpval n) (Z.to_nat (Z.min nbits (8 * mp_len e)))) v) -> mp_ok op0' -> same_shape op0 op0' -> mp_ok (NE s') -> zlen s' = zlen s -> Q (Ok tt, r', op0', s')) ->
  wp (ct_exp_mod_odd_mp_mp r op0 n e nbits s) Q.
Proof.
  intros r op0 n e nbits s Q Hr H0 Hn He Hs HO Hnn C C0 V0 C0' LS HU HR HRs Hb HQ.
  destruct (odd_nlimbs n Hn HO) as [N0 NP]. pose proof (mp_len_nonneg r) as Lr. pose proof (mp_len_nonneg n) as Ln. pose proof (mp_len_nonneg op0) as L0.
  destruct (compat_nlimbs op0 (mp_len n) H0 Ln C0) as [NN0 _]. fold (nlimbs n) in NN0.
  destruct (compat_nlimbs n (mp_len op0) Hn L0 C0') as [NN0' VN0]. fold (nlimbs op0) in NN0'.
  assert (LP0 : 0 < mp_len op0).
  { pose proof (nlimbs_spec op0). pose proof LB_pos. destruct (Z.eq_dec (mp_len op0) 0) as [E|E]; [|lia]. rewrite E in *.
    assert (nlimbs op0 * LB < 1 * LB) by lia. assert (nlimbs op0 < 1) by (apply (Z.mul_lt_mono_pos_r LB); lia). lia. }
  set (b := mpval op0) in *. pose proof (mpval_nonneg op0 H0) as B0. fold b in B0.
  unfold ct_exp_mod_odd_mp_mp.
  apply wp_bind, wp_compat; [auto|lia|auto|]. apply wp_mif; intros E; [discriminate|]. clear E.
  apply wp_bind, wp_compat; [auto|lia|auto|]. apply wp_mif; intros E; [discriminate|]. clear E.
  apply wp_bind, wp_dassert_lt; auto.
  apply wp_bind, wp_compat; [auto|lia|auto|]. apply wp_mif; intros E; [discriminate|]. clear E.
  apply wp_bind, wp_dassert; [apply Z.eqb_eq; lia|].
  apply wp_mif; intros E; [apply Z.ltb_lt in E; lia|]. clear E.
  apply wp_bind, wp_neg_inv; auto. intros g HG.
  apply wp_view with (K := fun full out => dassert (nlimbs out =? nlimbs n) ;; _); auto. intros rf r0 Of Sf O0 L1 K1 Nn NV HU0.
  apply wp_bind, wp_dassert; [apply Z.eqb_eq; auto|].
  pose proof (compat_view r r0 n Hn C L1 K1) as C1. pose proof (room_view r r0 n Hn C L1 K1 HR) as HR1.
  assert (LP1 : 0 < mp_len r0).
  { pose proof (nlimbs_spec r0). pose proof LB_pos. pose proof (mp_len_nonneg r0). destruct (Z.eq_dec (mp_len r0) 0) as [E|E]; [|lia]. rewrite E in *. lia. }
  apply wp_bind, wp_radix2; auto. intros r1 (O1 & S1 & E1). apply wp_bind. cbn [unwrap]. apply wp_ret.
  pf (Z.mod_pos_bound (mg_radix n * mg_radix n) (mpval n)) as RB.
  assert (VC : forall r', same_shape r0 r' -> mp_ok r' -> mpval r' < mpval n -> len_compat r' (mp_len n)).
  { intros r' S' O' V'. apply (view_compat r r' n (mpval r')); auto; [rewrite (shape_len _ _ S'); auto|destruct S' as [-> _]; auto]. }
  pose proof (scratch_compat s n Hn LS) as CS.
  apply wp_view with (r := NE s) (K := fun sf s0 => _); auto.
  intros sf s0 Of' Sf' Os L2 K2 N2 V2 HUs.
  apply wp_bind. apply wp_to_pform; auto.
  { apply (compat_view (NE s)); auto. } { apply VC; auto. lia. } { rewrite (shape_len _ _ S1). auto. } { apply (room_view (NE s)); auto. }
  intros s1 v1 (O2 & S2 & E2) V1 F1 EV1. fold b in F1, EV1. apply wp_bind. cbn [unwrap]. apply wp_ret.
  pf (Z.mod_pos_bound (b * mg_radix n) (mpval n)) as BB.
  apply wp_bind, wp_copy_from; [auto|auto|lia|]. intros op1 O3 S3 E3.
  destruct (HUs s1 (mpval s1)) as (O4 & [K4 L4] & _). { split; [auto|]. split; auto. }
  destruct (mp_unshrink sf s1) as [l|l|l]; try discriminate. cbn [mp_len] in L4. pose proof LB_pos as LP.
  assert (L5 : zlen l = zlen s) by (apply (Z.mul_reg_r _ _ LB); lia).
  assert (RP : 0 < mg_radix n) by (apply Bpow_pos; lia).
  assert (RL : forall r', same_shape r0 r' -> mp_ok r' -> mpval r' < mpval n -> len_compat r' (2 * mp_len n)).
  { intros r' S' O' V'. destruct (VC r' S' O' V') as [X|(X1 & X2 & X3)]; [left; lia|right]. split; [auto|]. split; [lia|].
    assert (256 ^ mp_len n <= 256 ^ (2 * mp_len n)) by (apply Z.pow_le_mono_r; lia). lia. }
  assert (TR : forall v, 0 <= v < mpval n -> v < mpval n * mg_radix n).
  { intros v Hv. pf (mul_le_l (mpval n) 1 (mg_radix n)). lia. }
  apply wp_bind. apply wp_redc; auto.
  { rewrite (shape_len _ _ S1). auto. } { apply RL; auto. lia. } { apply TR. lia. }
  intros r2 v2 (O5 & S5 & E5) HV2. apply wp_bind. cbn [unwrap]. apply wp_ret.
  assert (F2 : inform n 1 v2).
  { assert (EV : v2 = mg_radix n mod mpval n).
    { apply (redc_form n (mg_radix n) (mpval r1)); auto. rewrite E1. apply inform_intro; auto. }
    rewrite EV. replace (mg_radix n) with (1 * mg_radix n) by lia. apply inform_intro; auto. }
  pose proof (inform_unique _ _ _ F2) as EV2. rewrite Z.mul_1_l, <- E5 in EV2.
  rewrite <- E5 in F2. clear HV2 E5 v2. pose proof F2 as [V2' _].
  pose proof (shape_trans _ _ _ S1 S5) as S5'.
  set (P := mg_fine n b ((mg_radix n * mg_radix n) mod mpval n) /\ mg_exp_fine n b (mpval e mod 2 ^ nbits) nbits).
  apply wp_bind. apply wp_exp_ploop with (P := P) (b := b); auto; rewrite ?(shape_nlimbs _ _ S5'), ?(shape_len _ _ S5'); auto.
  { apply VC; auto. lia. }
  { rewrite L1. unfold shrunk_len. pf (align_rng (mp_len n)). destruct (supports_unaligned r); [lia|].
    rewrite !ct_align_spec by lia. rewrite !(Z.mul_comm _ LB). apply mul_le_l; [lia|]. apply nlimbs_len_mono. lia. }
  { lia. }
  { apply (shape_compat op0); auto. lia. }
  { rewrite (shape_len _ _ S3). auto. }
  { rewrite E3, E2. split; [auto|]. intros [X _]. rewrite (proj1 F1 (fine_not_lost op0 r1 n ltac:(rewrite E1; exact X))). apply inform_intro; auto. }
  { split; auto. }
  { intros [_ X]. exact X. }
  { apply (shape_room r0); auto. }
  { apply (shape_room (NE s)); auto. split; auto. }
  intros r3 v3 s3 (O6 & S6 & E6) F3 EV3 Os3 Ls3. pose proof F3 as [V3 _]. pose proof (shape_trans _ _ _ S5' S6) as S6'.
  apply wp_bind. apply wp_redc; auto.
  { rewrite (shape_len _ _ S6'). auto. } { apply RL; auto. lia. } { rewrite E6. apply TR. lia. }
  intros r4 v4 (O7 & S7 & E7) HV4. apply wp_bind. cbn [unwrap]. apply wp_ret.
  pose proof HV4 as [V4 _].
  apply wp_ret. apply (HQ _ v4); auto; [| | |lia].
  - apply HU0. split; [auto|]. split; [eapply shape_trans; eauto|auto].
  - intros X1 X2. apply (redc_form n _ (mpval r3)); auto. rewrite E6. apply F3. split; auto.
  - intros g' HG'. rewrite (neg_inv_unique n g' g) by auto. rewrite E3, E2, EV1, EV2 in EV3. rewrite <- EV3, <- E6. exact HV4.
Qed.

End Facts.

(** ** Statements *)
Lemma carry_ok_fine : forall (c : cfg) n a b, 0 < mpval n -> 0 <= a -> 0 <= b -> B * b + mpval n <= B * mg_radix n -> mg_fine n a b.
Proof.
  intros c n a b HN Ha Hb HB i M s Hi HM HS. pf (Bpow_pos i) as PI. pose proof B_gt as BG.
  pf (Z.mod_pos_bound a (B ^ i)) as MB.
  pf (acc_bound i s (a mod B ^ i) b (mpval n) M Hi HS MB HM Hb HN) as AB.
  pf (Z.mod_pos_bound (a / B ^ i) B) as DB. pf (mul_le_l b ((a / B ^ i) mod B) (B - 1)) as OV. lia.
Qed.

Lemma carry_ok_exp_fine : forall (c : cfg) n, 0 < mpval n -> mg_carry_ok n ->
  (forall a b, 0 <= a -> 0 <= b < mpval n -> mg_fine n a b) /\ (forall b e k, mg_exp_fine n b e k).
Proof.
  intros c n HN HC. assert (G : forall a b, 0 <= a -> 0 <= b < mpval n -> mg_fine n a b).
  { intros a b Ha Hb. apply carry_ok_fine; auto; [lia|]. unfold mg_carry_ok in HC. pose proof B_gt. pf (mul_le_l B b (mpval n)). lia. }
  split; [auto|]. intros b e k j Hj. unfold mg_form. split; [|intros _]; apply G; try (apply Z.mod_pos_bound; auto).
Qed.

Lemma mexp_any : forall (c : cfg) r op0 n g radix e nbits s b, mp_ok r -> mp_ok op0 -> mp_ok n -> mp_ok radix -> mp_ok e -> mp_ok (NE s) ->
  Z.odd (mpval n) = true -> neg_inv n g -> len_compat n (mp_len r) -> nlimbs n <= zlen s ->
  len_compat op0 (mp_len n) -> 0 < mp_len op0 -> mpval op0 = (b * mg_radix n) mod mpval n ->
  len_compat radix (mp_len n) -> mpval radix = mg_radix n mod mpval n ->
  mg_room r n -> mg_room (NE s) n -> 0 <= nbits ->
  yields (ct_montgomery_exp_mod_odd_mp_mp r op0 n g radix e nbits s) (fun '(res, r', s') =>
    res = Ok tt /\ zlen s' = zlen s /\ exists v, becomes r r' v /\ 0 <= v < mpval n /\
    (mg_exp_fine n b (mpval e mod 2 ^ nbits) nbits -> v = (b ^ (mpval e mod 2 ^ nbits) * mg_radix n) mod mpval n)).
Proof. intros. apply wp_yields, wp_montgomery_pexp with (b := b); auto. intros r' v s' HB HV HF _ _ L. split; [auto|]. split; [auto|]. exists v. auto. Qed.

Lemma exp_any : forall (c : cfg) r op0 n e nbits s, mp_ok r -> mp_ok op0 -> mp_ok n -> mp_ok e -> mp_ok (NE s) ->
  Z.odd (mpval n) = true -> 2 <= nlimbs n -> len_compat n (mp_len r) -> len_compat op0 (mp_len n) -> mpval op0 < mpval n -> len_compat n (mp_len op0) ->
  nlimbs n <= zlen s -> 16 * (mp_len n + LB) + 8 < 2 ^ UW ->
  mg_room r n -> mg_room (NE s) n -> 0 <= nbits ->
  yields (ct_exp_mod_odd_mp_mp r op0 n e nbits s) (fun '(res, r', op0', s') =>
    res = Ok tt /\ mp_ok op0' /\ same_shape op0 op0' /\ zlen s' = zlen s /\ exists v, becomes r r' v /\ 0 <= v < mpval n /\
    (mg_fine n (mpval op0) ((mg_radix n * mg_radix n) mod mpval n) -> mg_exp_fine n (mpval op0) (mpval e mod 2 ^ nbits) nbits ->
     v = mpval op0 ^ (mpval e mod 2 ^ nbits) mod mpval n)).
Proof. intros. apply wp_yields, wp_pexp; auto. intros r' v op0' s' HB HV HF _ O1 S1 _ L. split; [auto|]. split; [auto|]. split; [auto|]. split; [auto|]. exists v. auto. Qed.

Lemma to_form_any : forall (c : cfg) r t n g r2, mp_ok r -> mp_ok t -> mp_ok n -> mp_ok r2 -> Z.odd (mpval n) = true -> neg_inv n g ->
  len_compat n (mp_len r) -> len_compat t (mp_len n) -> mpval t < mpval n -> len_compat r2 (mp_len n) -> 0 < mp_len r2 ->
  mpval r2 = (mg_radix n * mg_radix n) mod mpval n -> mg_room r n ->
  yields (ct_to_montgomery_form_mp r t n g r2) (fun '(res, r') => res = Ok tt /\ exists v, becomes r r' v /\ 0 <= v < mpval n /\
    (v = (mpval t * mg_radix n) mod mpval n <-> mg_no_carry_lost t r2 n)).
Proof. intros. apply wp_yields, wp_to_pform; auto. intros r' v HB HV HF _. split; [auto|]. exists v. split; [auto|]. split; [auto|]. symmetry. auto. Qed.

(** ** The exact values *)
Lemma form_onto : forall (c : cfg) n v, Z.odd (mpval n) = true -> 0 <= v < mpval n -> exists b, v = (b * mg_radix n) mod mpval n.
Proof.
  intros c n v HO HV. assert (G : Z.gcd (mg_radix n) (mpval n) = 1) by (rewrite Z.gcd_comm; apply Bpow_coprime; [auto|apply nlimbs_nonneg]).
  destruct (Z.gcd_bezout _ _ _ G) as (x & y & E). exists (v * x). rewrite <- Z.mul_assoc. replace (x * mg_radix n) with (1 + (- y) * mpval n) by lia.
  rewrite Z.mul_add_distr_l, Z.mul_1_r, Z.mul_assoc, Z.mod_add by lia. rewrite Z.mod_small; auto.
Qed.

Lemma mul_value : forall (c : cfg) r op0 op1 n g, mp_ok r -> mp_ok op0 -> mp_ok op1 -> mp_ok n ->
  Z.odd (mpval n) = true -> neg_inv n g -> len_compat n (mp_len r) -> len_compat op0 (mp_len n) -> len_compat op1 (mp_len n) ->
  mpval op0 < mpval n -> mpval op1 < mpval n -> 0 < mp_len op1 -> mg_room r n ->
  yields (ct_montgomery_mul_mod_mp_mp r op0 op1 n g) (fun '(res, r') => res = Ok tt /\ becomes r r' (mg_product n g (mpval op0) (mpval op1)) /\
    (mg_reduced n (mpval op0 * mpval op1) (mg_product n g (mpval op0) (mpval op1)) <-> mg_no_carry_lost op0 op1 n)).
Proof. intros. apply wp_yields, wp_mul_any; auto. intros r' v HB _ HE ->. split; [auto|]. split; [auto|]. symmetry. auto. Qed.

Lemma mexp_value : forall (c : cfg) r op0 n g radix e nbits s, mp_ok r -> mp_ok op0 -> mp_ok n -> mp_ok radix -> mp_ok e -> mp_ok (NE s) ->
  Z.odd (mpval n) = true -> neg_inv n g -> len_compat n (mp_len r) -> nlimbs n <= zlen s ->
  len_compat op0 (mp_len n) -> 0 < mp_len op0 -> mpval op0 < mpval n ->
  len_compat radix (mp_len n) -> mpval radix = mg_radix n mod mpval n ->
  mg_room r n -> mg_room (NE s) n -> 0 <= nbits ->
  yields (ct_montgomery_exp_mod_odd_mp_mp r op0 n g radix e nbits s) (fun '(res, r', s') =>
    res = Ok tt /\ zlen s' = zlen s /\
    becomes r r' (mg_power n g (mpval op0) (mpval e) (mg_radix n mod mpval n) (Z.to_nat (Z.min nbits (8 * mp_len e))))).
Proof.
  intros c r op0 n g radix e nbits s Hr H0 Hn Hra He Hs HO HG C LS C0 L0 V0 Cr Er R1 R2 Hb. pose proof (mpval_nonneg op0 H0) as P0.
  destruct (form_onto c n (mpval op0) HO) as [b Eb]; [lia|].
  apply wp_yields, wp_montgomery_pexp with (b := b); auto. intros r' v s' HB HV _ -> _ L. auto.
Qed.

Lemma exp_value : forall (c : cfg) r op0 n e nbits s g, mp_ok r -> mp_ok op0 -> mp_ok n -> mp_ok e -> mp_ok (NE s) ->
  Z.odd (mpval n) = true -> 2 <= nlimbs n -> len_compat n (mp_len r) -> len_compat op0 (mp_len n) -> mpval op0 < mpval n -> len_compat n (mp_len op0) ->
  nlimbs n <= zlen s -> 16 * (mp_len n + LB) + 8 < 2 ^ UW ->
  mg_room r n -> mg_room (NE s) n -> 0 <= nbits -> neg_inv n g ->
  let form := mg_product n g (mpval op0) ((mg_radix n * mg_radix n) mod mpval n) in
  let power := mg_power n g form (mpval e) (mg_radix n mod mpval n) (Z.to_nat (Z.min nbits (8 * mp_len e))) in
  yields (ct_exp_mod_odd_mp_mp r op0 n e nbits s) (fun '(res, r', op0', s') =>
    res = Ok tt /\ mp_ok op0' /\ same_shape op0 op0' /\ zlen s' = zlen s /\ exists v, becomes r r' v /\ mg_reduced n power v).
Proof. intros. apply wp_yields, wp_pexp; auto. intros r' v op0' s' HB HV _ HF O1 S1 _ L. split; [auto|]. split; [auto|]. split; [auto|]. split; [auto|]. exists v. split; [auto|]. apply HF. auto. Qed.

Lemma to_form_value : forall (c : cfg) r t n g r2, mp_ok r -> mp_ok t -> mp_ok n -> mp_ok r2 -> Z.odd (mpval n) = true -> neg_inv n g ->
  len_compat n (mp_len r) -> len_compat t (mp_len n) -> mpval t < mpval n -> len_compat r2 (mp_len n) -> 0 < mp_len r2 ->
  mpval r2 = (mg_radix n * mg_radix n) mod mpval n -> mg_room r n ->
  yields (ct_to_montgomery_form_mp r t n g r2) (fun '(res, r') => res = Ok tt /\
    becomes r r' (mg_product n g (mpval t) ((mg_radix n * mg_radix n) mod mpval n))).
Proof. intros. apply wp_yields, wp_to_pform; auto. intros r' v HB _ _ ->. auto. Qed.
