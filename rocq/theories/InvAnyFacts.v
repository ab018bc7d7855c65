(** Facts about invmod_impl.rs (ModelInv.v): inversion modulo arbitrary numbers. *)
From Coq Require Import ZArith List Bool Lia Znumtheory.
Require Import Verif.Spec Verif.Base Verif.Monad Verif.Wp Verif.Pan Verif.Wx Verif.ModelLimb Verif.LimbFacts Verif.LimbFacts2 Verif.LimbProofs
  Verif.ModelBuf Verif.SpecBuf Verif.BufFacts Verif.BufFacts2 Verif.BufFacts3 Verif.BufProofs Verif.UpFacts Verif.ModelCmp Verif.CmpFacts
  Verif.ModelAdd Verif.AddFacts Verif.ModelShift Verif.ShiftFacts Verif.ModelMul Verif.MulFacts2
  Verif.ModelMont Verif.SpecMont Verif.MontFacts5 Verif.MontFacts6 Verif.SpecEuclid Verif.SpecSteps Verif.ModelEuclid Verif.EuclidFacts Verif.EuclidFacts2
  Verif.EuclidFacts4 Verif.SpecInv Verif.ModelInv Verif.InvFacts Verif.InvOddFacts4 Verif.InvOddFacts5.
Import ListNotations.
Open Scope Z_scope.

(** Recombining any number with the inverse modulo the power of two. *)
Lemma garner_any : forall m e x v vp ni D, 0 < m -> Z.odd m = true -> 0 <= e -> 0 <= v <= m -> is_inverse (2 ^ e) x vp -> is_inverse (2 ^ e) m ni ->
  D mod 2 ^ e = (vp - v) mod 2 ^ e -> let R := v + (D * ni) mod 2 ^ e * m in
  0 <= R <= m * 2 ^ e /\ (R = m * 2 ^ e -> e = 0 /\ v = m) /\ R mod m = v mod m /\ (x * R) mod 2 ^ e = 1 mod 2 ^ e.
Proof.
  intros m e x v vp ni D Hm HO He Hv [Hp Ep] [Hi Ei] ED R. set (P := 2 ^ e) in *. assert (HP : 0 < P) by (apply Z.pow_pos_nonneg; lia).
  set (T := (D * ni) mod P) in *. assert (HT : 0 <= T < P) by (apply Z.mod_pos_bound; auto).
  assert (ER : R mod P = vp mod P).
  { unfold R. rewrite <- Z.add_mod_idemp_r by lia. rewrite (Z.mul_mod T m) by lia. unfold T. rewrite Z.mod_mod by lia.
    rewrite <- Z.mul_mod by lia. replace (D * ni * m) with (D * (m * ni)) by ring. rewrite Z.mul_mod, Ei, ED, <- Z.mul_mod by lia.
    rewrite Z.add_mod_idemp_r by lia. f_equal. ring. }
  assert (E2 : (x * R) mod P = 1 mod P). { rewrite Z.mul_mod, ER, <- Z.mul_mod by lia. auto. }
  split; [|split; [|split; [|auto]]].
  - unfold R. pf (mul_nn T m). pf (mul_le_l m T (P - 1)). lia.
  - intros EQ. assert (E0 : e = 0).
    { destruct (Z.eq_dec e 0); [auto|]. exfalso. rewrite EQ in E2. replace (x * (m * P)) with (x * m * P) in E2 by ring. rewrite Z.mod_mul in E2 by lia.
      assert (1 < P) by (unfold P; pose proof (Z.pow_gt_1 2 e); lia). rewrite Z.mod_small in E2 by lia. discriminate. }
    split; [auto|]. assert (P1 : P = 1) by (unfold P; rewrite E0; auto). unfold R in EQ. assert (T0 : T = 0) by lia. rewrite T0, P1 in EQ. lia.
  - unfold R. apply Z.mod_add. lia.
Qed.

(** Being inverse modulo both parts. *)
Lemma inverse_parts : forall m e x v R, 0 < m -> Z.odd m = true -> 0 <= e -> is_inverse m x v -> 0 <= R < m * 2 ^ e -> R mod m = v mod m ->
  (x * R) mod 2 ^ e = 1 mod 2 ^ e -> is_inverse (m * 2 ^ e) x R.
Proof.
  intros m e x v R Hm HO He [Hv Ev] HR E1 E2. split; [auto|]. pose proof (Z.pow_pos_nonneg 2 e). set (P := 2 ^ e) in *.
  assert (D1 : (m | x * R - 1)). { apply Z.mod_divide; [lia|]. rewrite Zminus_mod, Z.mul_mod, E1, <- Z.mul_mod, Ev, <- Zminus_mod by lia. apply Z.mod_0_l. lia. }
  assert (D2 : (P | x * R - 1)). { apply Z.mod_divide; [lia|]. rewrite Zminus_mod, E2, <- Zminus_mod by lia. apply Z.mod_0_l. lia. }
  assert (D3 : (m * P | x * R - 1)).
  { destruct D1 as [q Hq]. rewrite Hq in D2. rewrite Z.mul_comm in D2. apply Gauss in D2; [|apply rel_prime_sym; apply odd_pow2_coprime; auto].
    destruct D2 as [w ->]. exists w. rewrite Hq. ring. }
  destruct D3 as [w Hw]. replace (x * R) with (1 + w * (m * P)) by lia. rewrite Z.mod_add; [auto|]. pf (Z.mul_pos_pos m P). lia.
Qed.

Lemma gcd_odd_part : forall e q x, 0 <= e -> e = 0 \/ Z.odd x = true -> Z.gcd (2 ^ e * q) x = Z.gcd q x.
Proof.
  intros e q x He HO. destruct HO as [->|HO]; [rewrite Z.pow_0_r, Z.mul_1_l; auto|].
  apply Z.divide_antisym_nonneg; try apply Z.gcd_nonneg; apply Z.gcd_greatest; try apply Z.gcd_divide_r.
  - apply Gauss with (b := 2 ^ e); [apply Z.gcd_divide_l|]. apply rel_prime_div with x; [|apply Z.gcd_divide_r]. apply odd_pow2_coprime; auto.
  - apply Z.divide_mul_r. apply Z.gcd_divide_l.
Qed.

Lemma ffs_lt : forall v a b, is_ffs v a -> is_ffs v b -> a < b -> False.
Proof.
  intros v a b HA HB L. destruct (ffs_eq v a HA) as (q & E & O). destruct (ffs_eq v b HB) as (q' & E' & O'). destruct HA as [A0 _].
  pose proof (Z.pow_pos_nonneg 2 a ltac:(lia) A0) as PA. replace b with (a + (b - a)) in E' by lia. rewrite Z.pow_add_r in E' by lia.
  assert (EQ : q = 2 ^ (b - a) * q') by (apply Z.mul_cancel_l with (p := 2 ^ a); lia). rewrite EQ, Z.odd_mul, Z.odd_pow in O by lia. discriminate.
Qed.
Lemma ffs_unique : forall v a b, is_ffs v a -> is_ffs v b -> a = b.
Proof. intros v a b HA HB. destruct (Z.lt_trichotomy a b) as [L|[E|L]]; [|auto|]; exfalso; eapply ffs_lt; [| |exact L| | |exact L]; eauto. Qed.
Lemma mod_pow2_le : forall y a b, 0 <= a <= b -> (y mod 2 ^ b) mod 2 ^ a = y mod 2 ^ a.
Proof. intros. apply (mod_pow_le _ _ a b 2); [lia|auto|]. apply Z.mod_mod. apply Z.pow_nonzero; lia. Qed.

Section Facts.
Context {c : cfg}.

Lemma odd_land : forall a b, Z.odd (Z.land a b) = (Z.odd a && Z.odd b)%bool.
Proof. intros. rewrite <- !Z.bit0_odd. apply Z.land_spec. Qed.
Lemma odd_lnot : forall v, Z.odd (lnot v) = negb (Z.odd v).
Proof.
  intros v. unfold lnot. rewrite <- !Z.bit0_odd, Z.lxor_spec, Z.ones_spec_low by (pose proof W_pos; lia). destruct (Z.testbit v 0); auto.
Qed.
Lemma limb0_odd : forall b, Z.odd (limb b 0) = Z.odd (mpval b).
Proof.
  intros b. rewrite limb_vlimb. unfold vlimb. rewrite Z.pow_0_r, Z.div_1_r. pose proof W_pos.
  destruct (mod_shift (mpval b) W) as [u E]; [lia|]. fold B in E. rewrite E. apply odd_shift. lia.
Qed.

Lemma wx_both_even : forall ex T a b (F : M T) (K : M T) (Q : T -> Prop), mp_ok a -> mp_ok b -> 0 < nlimbs a -> 0 < nlimbs b ->
  (Z.odd (mpval a) = false -> Z.odd (mpval b) = false -> wx ex F Q) -> (Z.odd (mpval a) = true \/ Z.odd (mpval b) = true -> wx ex K Q) ->
  wx ex (let! v0 := load_l a 0 in let! v1 := load_l b 0 in
      let! nz := ct_is_nonzero_l (Z.land (Z.land (lnot v0) (lnot v1)) 1) in mif negb (nz =? 0) then F else K) Q.
Proof.
  intros ex T a b F K Q Oa Ob Na Nb HF HK. apply wx_bind, wp_load; [auto|lia|]. apply wx_bind, wp_load; [auto|lia|].
  rewrite land1, odd_land, !odd_lnot, !limb0_odd. pose proof isl_0. pose proof isl_1.
  apply wx_bind, wp_is_nonzero. { destruct (Z.odd (mpval a)), (Z.odd (mpval b)); auto. }
  apply wx_mif; intros E; destruct (Z.odd (mpval a)), (Z.odd (mpval b)); cbn in E; try discriminate E; auto.
Qed.
Lemma wp_both_even : forall T a b (F : M T) (K : M T) (Q : T -> Prop), mp_ok a -> mp_ok b -> 0 < nlimbs a -> 0 < nlimbs b ->
  (Z.odd (mpval a) = false -> Z.odd (mpval b) = false -> wp F Q) -> (Z.odd (mpval a) = true \/ Z.odd (mpval b) = true -> wp K Q) ->
  wp (let! v0 := load_l a 0 in let! v1 := load_l b 0 in
      let! nz := ct_is_nonzero_l (Z.land (Z.land (lnot v0) (lnot v1)) 1) in mif negb (nz =? 0) then F else K) Q.
Proof. intros T a b F K Q Oa Ob Na Nb HF HK. apply wp_wx, wx_both_even; auto; intros; apply wx_wp; auto. Qed.
Lemma wx_view : forall ex T r n (K : mp -> mp -> M T) (Q : T -> Prop), mp_ok r -> mp_ok n -> len_compat n (mp_len r) ->
  (forall rf r0, mp_ok rf -> same_shape r rf -> mp_ok r0 -> mp_len r0 = shrunk_len r (mp_len n) -> kind_of r0 = kind_of r -> nlimbs r0 = nlimbs n -> mpval n < 256 ^ mp_len r0 ->
     (forall r1 v, becomes r0 r1 v -> becomes r (mp_unshrink rf r1) v) -> wx ex (K rf r0) Q) ->
  wx ex (let! rf := clear_bytes_above r (mp_len n) in let! r0 := mp_shrink_to rf (mp_len n) in K rf r0) Q.
Proof.
  intros ex T r n K Q Hr Hn HC HK. pose proof (mp_len_nonneg r) as Lr. pose proof (mp_len_nonneg n) as Ln.
  apply wx_bind, wp_clear_above; [auto|lia|]. intros rf (Of & Sf & Ef). pf (p256_pos (mp_len n)) as PN.
  apply wx_bind, wp_shrink_to; [auto|lia|rewrite Ef; apply Z.mod_pos_bound; lia|]. intros r0 O0 K0 L0 E0.
  assert (SE : shrunk_len rf (mp_len n) = shrunk_len r (mp_len n)).
  { unfold shrunk_len. rewrite (shape_len _ _ Sf). destruct Sf as [KK _]. destruct r, rf; try discriminate; auto. }
  rewrite SE in L0. destruct (shrunk_n r n Hn HC) as (SN & SL & _). destruct (compat_nlimbs n (mp_len r) Hn Lr HC) as [NN NV].
  apply HK; auto.
  - destruct Sf as [<- _]. auto.
  - unfold nlimbs at 1. rewrite L0. auto.
  - rewrite L0. apply shrunk_pow; auto. apply mpval_bound; auto.
  - intros r1 v (O1 & S1 & E1). destruct (unshrink_spec rf r1) as (O4 & S4 & E4); auto.
    { destruct S1 as [-> _]. auto. } { rewrite (shape_len _ _ S1), (shape_len _ _ Sf). lia. }
    split; [auto|]. split; [eapply shape_trans; eauto|]. rewrite E4, E1. rewrite Z.div_small; [lia|].
    pose proof (mpval_bound r0 O0) as B0. rewrite (shape_len _ _ S1). lia.
Qed.

Lemma wx_inv_any : forall ex op0 n s0 s1 s2 s3 m e (Q : _ -> Prop), mp_ok op0 -> mp_ok n -> mut_compat op0 n ->
  scratch_ok n s0 -> scratch_ok n s1 -> scratch_ok n s2 -> scratch_ok n s3 ->
  0 < mpval n -> mpval n = m * 2 ^ e -> Z.odd m = true -> 0 <= e -> Z.odd (mpval n) = true \/ Z.odd (mpval op0) = true ->
  gcd_len_ok (LB * nlimbs n) -> liftable (mpval op0) (8 * mp_len n - 1) ->
  (Z.gcd (mpval n) (mpval op0) = 1 -> liftable m (8 * mp_len n - 1)) ->
  (Z.gcd (mpval n) (mpval op0) = 1 -> 1 < m -> debug c = true -> forall k d f, batches k (1, m, mpval op0) = (d, f, 0) -> Z.abs f = 1 ->
     fst (residues m (nlimbs n - 1) (mpval op0) k) = 0 -> ex = true) ->
  (Z.gcd (mpval n) (mpval op0) = 1 -> 1 < m -> e = 0 -> forall k d f, batches k (1, m, mpval op0) = (d, f, 0) -> Z.abs f = 1 ->
     fst (residues m (nlimbs n - 1) (mpval op0) k) = 0 -> f < 0 -> ex = true) ->
  (forall res o' n', mp_ok o' -> same_shape op0 o' -> becomes n n' (mpval n) ->
     (Z.gcd (mpval n) (mpval op0) <> 1 -> res = Err ImOperandsNotCoprime /\ mpval o' = 0) ->
     (Z.gcd (mpval n) (mpval op0) = 1 -> res = (if mpval o' =? 0 then Err ImOperandsNotCoprime else Ok tt) /\
        exists k d f, batches k (1, m, mpval op0) = (d, f, 0) /\ Z.abs f = 1 /\
        (debug c = true -> 1 < m -> fst (residues m (nlimbs n - 1) (mpval op0) k) <> 0) /\
        (e = 0 -> 1 < m -> f < 0 -> fst (residues m (nlimbs n - 1) (mpval op0) k) <> 0) /\
        0 <= mpval o' < mpval n /\ mpval o' mod m = end_value m f (fst (residues m (nlimbs n - 1) (mpval op0) k)) mod m /\
        (mpval op0 * mpval o') mod 2 ^ e = 1 mod 2 ^ e) -> Q (res, o', n')) ->
  wx ex (ct_inv_mod_mp_mp op0 n (s0, s1, s2, s3)) Q.
Proof.
  intros ex op0 n s0 s1 s2 s3 m e Q Oo On CO [OS0 L0] [OS1 L1] [OS2 L2] [OS3 L3] NP NE' HO He HP HU LX HG HX1 HX2 HQ.
  destruct (mut_nlimbs op0 n Oo On CO) as (NN & XB & NB). pose proof LB_pos as HLB. pose proof B_gt as HB.
  pose proof (mpval_bound n On) as BN. pose proof (mpval_bound_B n On) as BNB. pose proof (mp_len_nonneg n) as Ln. pose proof (mp_len_nonneg op0) as Lo.
  assert (Hn : 0 < nlimbs n). { pose proof (nlimbs_nonneg n). destruct (Z.eq_dec (nlimbs n) 0) as [E|]; [|lia]. rewrite E, Z.pow_0_r in BNB. lia. }
  assert (Pl : 0 < mp_len n). { destruct (Z.eq_dec (mp_len n) 0) as [E|]; [|lia]. rewrite E, Z.pow_0_r in BN. lia. }
  assert (Plo : 0 < mp_len op0). { destruct (Z.eq_dec (mp_len op0) 0) as [E|]; [|lia]. rewrite E, Z.pow_0_r in NB. lia. }
  set (x := mpval op0) in *. set (N := mpval n) in *. set (len := mp_len n) in *.
  assert (NL : len <= LB * nlimbs n) by (pose proof (nlimbs_spec n); unfold len; lia).
  assert (LU : 16 * len < 2 ^ UW) by (destruct On; auto).
  pose proof (pow2_gt0 e He) as PE. assert (MP : 0 < m) by (apply (mul_lt_cancel (2 ^ e) 0 m); lia).
  assert (MN : m <= N) by (pf (mul_le_l m 1 (2 ^ e)); lia).
  assert (FE : is_ffs N e).
  { split; [auto|]. rewrite NE'. split; [apply Z.mod_mul; lia|]. rewrite Z.div_mul by lia. rewrite Zmod_odd, HO. auto. }
  assert (EB : e < 8 * len). { apply (is_ffs_bound N); [|auto]. rewrite <- pow256 by lia. lia. }
  assert (CS : forall s, nlimbs n <= zlen s -> len_compat n (mp_len (NE s))) by (intros; apply scratch_compat; auto).
  unfold ct_inv_mod_mp_mp. apply wx_mif; intros E; [rewrite not_empty in E by (fold len; lia); discriminate|]. clear E.
  destruct CO as [CO1 CO2].
  apply wx_bind, wp_compat; auto. apply wx_mif; intros E; [discriminate|]. clear E. apply wx_bind, wp_compat; auto. apply wx_mif; intros E; [discriminate|]. clear E.
  apply wx_both_even; auto; [lia| |]. { intros A1 A2. fold x in A1. fold N in A2. destruct HP; congruence. }
  intros _. fold len. change (ct_mp_nlimbs len) with (nlimbs n).
  apply wx_mif; intros E; [apply Z.ltb_lt in E; lia|]. clear E. apply wx_mif; intros E; [apply Z.ltb_lt in E; lia|]. clear E.
  apply wx_mif; intros E; [apply Z.ltb_lt in E; lia|]. clear E. apply wx_mif; intros E; [apply Z.ltb_lt in E; lia|]. clear E.
  apply (wx_view _ _ (NE s0) n); auto. intros rf0 t0 _ _ Ot0 _ Kt0 Nt0 _ _.
  apply (wx_view _ _ (NE s1) n); auto. intros rf1 t1 _ _ Ot1 _ Kt1 Nt1 _ _.
  destruct t0 as [l|l0|l0]; try discriminate Kt0. destruct t1 as [l|l1|l1]; try discriminate Kt1. clear rf0 rf1 Kt0 Kt1.
  pose proof (ne_len l0) as Lt0. pose proof (ne_len l1) as Lt1. rewrite Nt0 in Lt0. rewrite Nt1 in Lt1. set (t0 := NE l0) in *. set (t1 := NE l1) in *. clearbody t0 t1.
  apply wx_bind, wp_find_first_set_bit; auto; [fold N; lia|]. intros e' _ FE'. fold N in FE'. assert (e' = e) by (eapply ffs_unique; eauto). subst e'. clear FE'.
  rewrite lc_unwrap_chc. apply wx_mif; intros E; [discriminate|]. clear E. apply wx_bind, wp_assert; auto.
  assert (IU : isu e) by (unfold isu; lia).
  apply wx_bind, wp_rshift; auto. fold N. rewrite NE', Z.div_mul by lia. intros n1 (On1 & Sn1 & En1).
  rewrite (shape_len _ _ Sn1). fold len. apply wx_bind, wp_usub; [lia|]. set (mx := 8 * len - 1) in *.
  assert (S2 : mx <= 8 * (LB * zlen s2)) by (pf (mul_le_l LB (nlimbs n) (zlen s2)); unfold mx; lia).
  apply wx_bind, wp_inv_pow2; auto; try (unfold mx; lia). { fold x. destruct HP as [HP|HP]; [|auto]. left. rewrite NE', Z.odd_mul in HP. destruct (Z.eq_dec e 0); [auto|].
    exfalso. rewrite (Z.odd_pow 2 e), HO in HP by lia. discriminate. }
  fold x. intros v0 s2' k Ov0 Sv0 Os2 Zs2 Hk Ev0.
  assert (EX : e = 0 \/ Z.odd x = true).
  { destruct HP as [HP|HP]; [|auto]. left. rewrite NE', Z.odd_mul in HP. destruct (Z.eq_dec e 0); [auto|]. exfalso. rewrite (Z.odd_pow 2 e), HO in HP by lia. discriminate. }
  assert (INV : forall y kk, e = 0 \/ Z.odd y = true -> mx <= 2 ^ Z.of_nat kk -> is_inverse (2 ^ e) y (hensel y kk mod 2 ^ e)).
  { intros y kk HY HK. destruct HY as [->|HY]; [|apply hensel_inv_mod; [auto|unfold mx in HK; lia]]. rewrite Z.pow_0_r, Z.mod_1_r. split; [lia|]. rewrite !Z.mod_1_r. auto. }
  pose proof (INV x k EX Hk) as IP. rewrite <- Ev0 in IP.
  assert (NN1 : nlimbs n1 = nlimbs n) by (apply shape_nlimbs; auto). assert (LN1 : mp_len n1 = len) by (apply shape_len; auto).
  assert (CO1' : len_compat op0 (mp_len n1)) by (rewrite LN1; auto).
  assert (CO2' : len_compat n1 (mp_len op0)).
  { destruct CO2 as [C|(K1 & K2 & K3)]; [left; rewrite LN1; auto|right]. rewrite LN1, En1. destruct Sn1 as [-> _]. split; [auto|]. split; [auto|lia]. }
  assert (GE : Z.gcd m x = Z.gcd N x). { rewrite NE', Z.mul_comm. symmetry. apply gcd_odd_part; auto. }
  apply wx_bindx, wx_inv_impl; auto; try lia.
  { rewrite En1. auto. } { left. rewrite LN1. lia. } { split; auto. } { rewrite NN1. auto. }
  { rewrite En1, NN1. fold x. rewrite GE. intros DT G M1 k' d f EB' AF R0. eapply HX1; eauto. }
  fold x. rewrite En1, NN1, GE. intros res r' o' a b kk d f Or' Sr' (Oo' & So' & Eo') [Oa Za] Hb EBA AF H0 H1.
  assert (LS : forall n2, mp_ok n2 -> same_shape n n2 -> mpval n2 = m -> forall T (F : mp -> M T) Q', (forall n3, becomes n n3 N -> wx ex (F n3) Q') -> wx ex (let! '(n3, _) := ct_lshift_mp n2 e in F n3) Q').
  { intros n2 On2 Sn2 En2 T F Q' HF. apply wx_bind, wp_lshift; auto. intros n3 (On3 & Sn3 & En3). apply HF. split; [auto|]. split; [eapply shape_trans; eauto|].
    rewrite En3, En2, <- NE', (shape_len _ _ Sn2). apply Z.mod_small. fold len. lia. }
  destruct (Z.eq_dec (Z.gcd N x) 1) as [G|G].
  2:{ rewrite (H0 G). apply LS; auto. intros n3 Bn3. apply wx_ret. apply HQ; auto. intros; contradiction. }
  pose proof (HG G) as LM. destruct (H1 G) as (-> & Vr & DZ). set (r := fst (residues m (nlimbs n - 1) x kk)) in *. rewrite G in AF.
  assert (RR : 0 <= r < m). { apply residues_range; [lia|auto|]. replace (nlimbs n - 1 + 1) with (nlimbs n) by lia. lia. }
  assert (VO : 0 <= mpval r' <= m). { rewrite Vr. unfold end_value. destruct (m =? 1); [lia|]. destruct (f <? 0); lia. }
  apply wx_bind, wp_copy_from; auto. { rewrite (shape_len _ _ So'). lia. }
  intros o2 Oo2 So2 Eo2. assert (Lv0 : mp_len v0 = LB * nlimbs n) by (rewrite (shape_len _ _ Sv0); auto). assert (Lr' : mp_len r' = LB * nlimbs n) by (rewrite (shape_len _ _ Sr'); auto).
  assert (Nv0 : nlimbs v0 = nlimbs n) by (rewrite (shape_nlimbs _ _ Sv0); auto). assert (Nr' : nlimbs r' = nlimbs n) by (rewrite (shape_nlimbs _ _ Sr'); auto).
  assert (PL : 256 ^ len <= 256 ^ (LB * nlimbs n)) by (apply Z.pow_le_mono_r; lia).
  apply wx_bind, wp_sub_mp; auto; [lia|rewrite Lv0; lia|]. intros v1 kb (_ & V & (Ov1 & Sv1 & Ev1) & EV). rewrite Lv0 in EV.
  assert (Lv1 : mp_len v1 = LB * nlimbs n) by (rewrite (shape_len _ _ Sv1); auto).
  apply wx_bind, wp_inv_pow2; auto; try (rewrite ?Lr', ?LN1, ?Za, ?Zs2; unfold mx; lia). { rewrite En1. auto. } { rewrite En1. auto. }
  rewrite En1. intros w s3' k2 Ow Sw _ _ Hk2 Ew. pose proof (INV m k2 (or_intror HO) Hk2) as IM. rewrite <- Ew in IM.
  apply wx_bind, wp_mul_trunc; auto; [lia|]. rewrite Lv1, Ev1. intros v2 (Ov2 & Sv2 & Ev2). assert (Lv2 : mp_len v2 = LB * nlimbs n) by (rewrite (shape_len _ _ Sv2); auto).
  apply wx_bind, wp_ct_clear_bits_above; [auto|clear - EB He LU; lia|]. intros v3 (Ov3 & Sv3 & Ev3). assert (Lv3 : mp_len v3 = LB * nlimbs n) by (rewrite (shape_len _ _ Sv3); auto).
  assert (P2 : forall y j, e <= 8 * j -> (y mod 256 ^ j) mod 2 ^ e = y mod 2 ^ e). { intros y j Hj. rewrite pow256 by lia. apply mod_pow2_le; lia. }
  rewrite Ev2, P2, <- Z.mul_mod_idemp_l, P2, Z.mul_mod_idemp_l in Ev3 by lia. set (T := (V * mpval w) mod 2 ^ e) in *.
  assert (HT : 0 <= T < 2 ^ e) by (apply Z.mod_pos_bound; lia).
  assert (VM : V mod 2 ^ e = (mpval v0 - mpval r') mod 2 ^ e).
  { rewrite <- EV. rewrite <- (P2 (V - _) (LB * nlimbs n)) by lia. rewrite Zminus_mod, Z.mod_mul, Z.sub_0_r, Z.mod_mod, P2 by lia. auto. }
  destruct (garner_any m e x (mpval r') (mpval v0) (mpval w) V MP HO He VO IP IM VM) as (RB & RE & RM & R2). fold T in RB, RE, RM, R2. rewrite <- NE' in RB, RE.
  pf (mul_nn T m) as TM. assert (TN : T * m < N) by (pf (mul_le_l m T (2 ^ e - 1)); lia).
  assert (P2e : 2 ^ e <= 256 ^ len) by (rewrite pow256 by lia; apply Z.pow_le_mono_r; lia).
  apply wx_bind, wp_mul_trunc; auto; [lia|]. rewrite Lv3, Ev3, En1, (Z.mod_small T), (Z.mod_small (T * m)) by lia. intros v4 (Ov4 & Sv4 & Ev4).
  assert (Nv4 : nlimbs v4 = nlimbs n) by (rewrite (shape_nlimbs _ _ Sv4), (shape_nlimbs _ _ Sv3), (shape_nlimbs _ _ Sv2), (shape_nlimbs _ _ Sv1); auto).
  assert (Lo2 : mp_len o2 = mp_len op0) by (rewrite (shape_len _ _ So2), (shape_len _ _ So'); auto).
  apply wx_bind, wp_add_mp; auto. { rewrite Nv4, (shape_nlimbs _ _ So2), (shape_nlimbs _ _ So'). lia. } { rewrite Lo2. lia. }
  intros o3 ca (Hca & V3 & (Oo3 & So3 & Eo3) & EA). rewrite Lo2, Eo2, Ev4 in EA. pose proof (mpval_nonneg o3 Oo3) as O3P.
  assert (ca = 0). { destruct Hca as [|CA]; [auto|]. rewrite CA in EA. clear - EA RB NB O3P Eo3 V3. lia. } subst ca.
  apply wx_bind, wp_assert; [auto|].
  apply LS; auto. intros n3 (On3 & Sn3 & En3).
  assert (E3 : mpval o3 = mpval r' + T * m) by lia.
  apply wx_bind, wp_lt_mp; auto. rewrite En3, E3, lc_unwrap_chc.
  destruct (Z.ltb_spec (mpval r' + T * m) N) as [LT|GT].
  2:{ assert (RN : mpval r' + T * m = N) by lia. destruct (RE RN) as [E0 VM1]. assert (EX' : ex = true).
      { rewrite Vr in VM1. unfold end_value in VM1. destruct (Z.eqb_spec m 1); [lia|]. destruct (Z.ltb_spec f 0); [|lia]. apply (HX2 G ltac:(lia) E0 kk d f); auto. fold r. lia. }
      rewrite EX'. apply pan_wx. reflexivity. }
  apply wx_bind, wp_assert; [auto|].
  assert (S3 : same_shape op0 o3) by (eapply shape_trans; [|exact So3]; eapply shape_trans; eauto).
  assert (FIN : exists k d f, batches k (1, m, x) = (d, f, 0) /\ Z.abs f = 1 /\ (debug c = true -> 1 < m -> fst (residues m (nlimbs n - 1) x k) <> 0) /\
        (e = 0 -> 1 < m -> f < 0 -> fst (residues m (nlimbs n - 1) x k) <> 0) /\
        0 <= mpval o3 < N /\ mpval o3 mod m = end_value m f (fst (residues m (nlimbs n - 1) x k)) mod m /\ (x * mpval o3) mod 2 ^ e = 1 mod 2 ^ e).
  { exists kk, d, f. fold r. split; [auto|]. split; [auto|]. split; [auto|]. split.
    { intros E0 M1 F0 R0. rewrite Vr in LT. unfold end_value in LT. destruct (Z.eqb_spec m 1); [lia|]. destruct (Z.ltb_spec f 0); [|lia]. rewrite R0 in LT. rewrite NE', E0 in LT. lia. }
    rewrite E3. split; [lia|]. split; [rewrite <- Vr; auto|auto]. }
  apply wx_bind, wp_is_zero_mp; auto. rewrite lc_unwrap_chc. apply wx_mif; intros E.
  - destruct (Z.eqb_spec (mpval o3) 0) as [E0|]; [|discriminate]. apply wx_ret. apply HQ; auto; [split; auto|]. intros _. split; [rewrite E0; auto|auto].
  - destruct (Z.eqb_spec (mpval o3) 0) as [|E0]; [discriminate|]. apply wx_ret. apply HQ; auto; [split; auto| |].
    + contradiction.
    + intros _. split; [|auto]. destruct (Z.eqb_spec (mpval o3) 0); [contradiction|auto].
Qed.

Lemma wp_inv_any : forall op0 n s0 s1 s2 s3 m e (Q : _ -> Prop), mp_ok op0 -> mp_ok n -> mut_compat op0 n ->
  scratch_ok n s0 -> scratch_ok n s1 -> scratch_ok n s2 -> scratch_ok n s3 ->
  0 < mpval n -> mpval n = m * 2 ^ e -> Z.odd m = true -> 0 <= e -> Z.odd (mpval n) = true \/ Z.odd (mpval op0) = true ->
  gcd_len_ok (LB * nlimbs n) -> liftable (mpval op0) (8 * mp_len n - 1) ->
  (Z.gcd (mpval n) (mpval op0) = 1 -> residues_fit m (nlimbs n - 1) (mpval op0) /\ liftable m (8 * mp_len n - 1)) ->
  (forall res o' n', mp_ok o' -> same_shape op0 o' -> becomes n n' (mpval n) ->
     (Z.gcd (mpval n) (mpval op0) <> 1 \/ mpval n = 1 -> res = Err ImOperandsNotCoprime /\ mpval o' = 0) ->
     (Z.gcd (mpval n) (mpval op0) = 1 -> 1 < mpval n -> res = Ok tt /\ is_inverse (mpval n) (mpval op0) (mpval o')) -> Q (res, o', n')) ->
  wp (ct_inv_mod_mp_mp op0 n (s0, s1, s2, s3)) Q.
Proof.
  intros op0 n s0 s1 s2 s3 m e Q Oo On CO S0 S1 S2 S3 NP NE' HO He HP HU LX HG HQ.
  pose proof (pow2_gt0 e He) as PE. assert (MP : 0 < m) by (apply (mul_lt_cancel (2 ^ e) 0 m); lia). assert (MN : m <= mpval n) by (pf (mul_le_l m 1 (2 ^ e)); lia).
  pose proof (mpval_bound_B n On) as BNB. pose proof (nlimbs_nonneg n) as Hn.
  assert (Hn0 : 0 < nlimbs n). { destruct (Z.eq_dec (nlimbs n) 0) as [E|]; [|lia]. rewrite E, Z.pow_0_r in BNB. lia. }
  set (p := nlimbs n - 1) in *. assert (HM : 0 < m < B ^ (p + 1)) by (replace (p + 1) with (nlimbs n) by (unfold p; lia); lia).
  assert (IC : forall k d f, 1 < m -> Z.gcd (mpval n) (mpval op0) = 1 -> batches k (1, m, mpval op0) = (d, f, 0) -> Z.abs f = 1 ->
     fst (residues m p (mpval op0) k) <> 0 /\ is_inverse m (mpval op0) (if f <? 0 then m - fst (residues m p (mpval op0) k) else fst (residues m p (mpval op0) k))).
  { intros k d f M1 G EB AF. destruct (HG G) as [FI _]. pose proof (residues_cong m p (mpval op0) k ltac:(unfold p; lia) HO HM FI) as RC. rewrite EB in RC. destruct RC as [RC _].
    apply inv_cases; [auto|apply residues_range; auto; unfold p; lia|lia|auto]. }
  apply wp_wx, (wx_inv_any false op0 n s0 s1 s2 s3 m e); auto; try lia; fold p.
  - intros G. apply HG; auto.
  - intros G M1 _ k d f EB AF R0. destruct (IC k d f M1 G EB AF). contradiction.
  - intros G M1 _ k d f EB AF R0 _. destruct (IC k d f M1 G EB AF). contradiction.
  - intros res o' n' Oo' So' Bn' H0 H1.
    assert (INV : Z.gcd (mpval n) (mpval op0) = 1 -> res = (if mpval o' =? 0 then Err ImOperandsNotCoprime else Ok tt) /\ is_inverse (mpval n) (mpval op0) (mpval o')).
    { intros G. destruct (H1 G) as (-> & k & d & f & EB & AF & _ & _ & RO & RM & R2). split; [auto|]. rewrite NE'. rewrite NE' in RO.
      unfold end_value in RM. destruct (Z.eqb_spec m 1) as [M1|M1].
      - apply (inverse_parts m e (mpval op0) 0); auto. split; [lia|]. rewrite M1, !Z.mod_1_r. auto.
      - destruct (IC k d f) as [_ II]; auto; [lia|]. eapply inverse_parts; eauto. }
    apply HQ; auto.
    + intros [G|N1]; [auto|]. destruct (Z.eq_dec (Z.gcd (mpval n) (mpval op0)) 1) as [G|G]; [|auto]. destruct (INV G) as [-> [RR _]]. assert (E0 : mpval o' = 0) by lia. rewrite E0. auto.
    + intros G N1. destruct (INV G) as [-> II]. split; [|auto]. destruct (Z.eqb_spec (mpval o') 0) as [E0|]; [|auto]. exfalso. destruct II as [_ II].
      rewrite E0, Z.mul_0_r, Z.mod_0_l, Z.mod_small in II by lia. discriminate.
Qed.
End Facts.
