(** Facts about montgomery_impl.rs (ModelMont.v): conversion to Montgomery form and exponentiation. *)
From Coq Require Import ZArith Znumtheory Zpow_facts List Bool Lia.
Require Import Verif.Spec Verif.Base Verif.Monad Verif.Wp Verif.ModelLimb Verif.LimbFacts Verif.LimbFacts2 Verif.LimbProofs
  Verif.ModelBuf Verif.SpecBuf Verif.BufFacts Verif.BufFacts2 Verif.BufFacts3 Verif.BufProofs Verif.UpFacts Verif.ModelCmp Verif.CmpFacts
  Verif.ModelAdd Verif.AddFacts Verif.AddFacts2 Verif.ModelDiv Verif.SpecDiv Verif.DivFacts4 Verif.DivFacts12 Verif.DivProofs Verif.DivProofs2
  Verif.SpecMont Verif.ModelMont Verif.MontFacts Verif.MontFacts2 Verif.MontFacts3 Verif.MontFacts4 Verif.MontFacts5.
Import ListNotations.
Open Scope Z_scope.

Section Facts.
Context {c : cfg}.

Lemma yields_wp : forall A (m : M A) (P Q : A -> Prop), yields m P -> (forall a, P a -> Q a) -> wp m Q.
Proof. intros A m P Q (r & H & HP) HQ. unfold returns in H. unfold wp. rewrite H. auto. Qed.

(** ** The negated inverse *)
Lemma wp_neg_inv : forall n (Q : result Z mg_err -> Prop), mp_ok n -> Z.odd (mpval n) = true ->
  (forall g, neg_inv n g -> Q (Ok g)) -> wp (ct_montgomery_neg_n0_inv_mod_l_mp n) Q.
Proof.
  intros n Q Hn HO HQ. destruct (odd_nlimbs n Hn HO) as [N0 NP]. unfold ct_montgomery_neg_n0_inv_mod_l_mp.
  apply wp_mif; intros E. { rewrite empty_nlimbs in E. apply Z.eqb_eq in E. lia. } clear E.
  apply wp_bind, wp_load; [auto|lia|]. rewrite limb_vlimb. apply wp_even; [auto|lia|]. rewrite HO, lc_unwrap_chc.
  apply wp_mif; intros E; [discriminate|]. clear E.
  apply wp_bind, wp_inv_l; [apply vlimb_isl|rewrite Zmod_odd, vlimb0_odd, HO; auto|]. intros r Hr HE. apply wp_ret. apply HQ.
  pose proof B_gt as BG. rewrite lnot_eq by auto. unfold lwadd. rewrite vlimb0 in HE. rewrite Z.mul_mod_idemp_l in HE by lia.
  change (2 ^ W) with B. unfold isl in Hr.
  assert (R0 : r <> 0). { intros ->. rewrite Z.mul_0_r, Z.mod_0_l in HE; lia. }
  rewrite Z.mod_small by lia. split; [lia|].
  assert (B0 : B <> 0) by lia. pose proof (Z.div_mod (mpval n * r) B B0) as D. rewrite HE in D. set (q := mpval n * r / B) in *.
  replace (mpval n * (B - 1 - r + 1) + 1) with ((mpval n - q) * B) by lia. apply Z.mod_mul. lia.
Qed.
Lemma wp_neg_inv_even : forall n (Q : result Z mg_err -> Prop), mp_ok n -> Z.odd (mpval n) = false -> Q (Err MgInvalidModulus) -> wp (ct_montgomery_neg_n0_inv_mod_l_mp n) Q.
Proof.
  intros n Q Hn HO HQ. unfold ct_montgomery_neg_n0_inv_mod_l_mp. pose proof (nlimbs_nonneg n).
  apply wp_mif; intros E; [apply wp_ret; auto|]. rewrite empty_nlimbs in E. apply Z.eqb_neq in E.
  apply wp_bind, wp_load; [auto|lia|]. rewrite limb_vlimb. apply wp_even; [auto|lia|]. rewrite HO, lc_unwrap_chc.
  apply wp_mif; intros E2; [apply wp_ret; auto|discriminate].
Qed.

(** ** Direct conversion *)
Lemma wp_new_div : forall n (Q : result mp_divisor divisor_err -> Prop), mp_ok n -> 0 < mpval n ->
  (forall d, divisor_for d (mpval n) -> Q (Ok d)) -> wp (mp_divisor_new n None) Q.
Proof.
  intros n Q Hn HN HQ. pose proof B_pos. destruct (new_correct c n None Hn) as [X _]; [cbn; lia|]. destruct X as [d X]; [cbn; lia|].
  unfold wp. unfold returns in X. rewrite X. apply HQ. exists n, None. cbn [dec_val]. split; [auto|]. split; [lia|]. split; [auto|lia].
Qed.
Lemma byte_len_ex : forall v, 0 < v -> exists n, byte_len v n /\ forall l, 0 <= l -> v < 256 ^ l -> n <= l.
Proof.
  intros v Hv. destruct (nbytes_spec v) as [[E _]|[H1 H2]]; [lia|lia|]. exists ((nbits v + 7) / 8). split; [split; [lia|auto]|].
  intros l Hl HV. apply nbytes_le_iff; lia.
Qed.
Lemma mg_radix_256 : forall n, mg_radix n = 256 ^ ct_mp_limbs_align_len (mp_len n).
Proof. intros. unfold mg_radix. rewrite ct_align_spec by apply mp_len_nonneg. rewrite Bpow256 by apply nlimbs_nonneg. reflexivity. Qed.
Lemma align_rng : forall n, 0 <= n -> n <= ct_mp_limbs_align_len n < n + LB.
Proof. intros. rewrite ct_align_spec by auto. pf (ct_mp_nlimbs_spec n). lia. Qed.

Lemma wp_to_form_direct : forall t n (Q : result unit mg_err * mp -> Prop), mp_ok t -> mp_ok n -> Z.odd (mpval n) = true ->
  len_compat n (mp_len t) ->
  (forall t', becomes t t' ((mpval t * mg_radix n) mod mpval n) -> Q (Ok tt, t')) ->
  wp (ct_to_montgomery_form_direct_mp t n) Q.
Proof.
  intros t n Q Ht Hn HO C HQ. destruct (odd_nlimbs n Hn HO) as [N0 NP]. pose proof (mp_len_nonneg t) as Lt. pose proof (mp_len_nonneg n) as Ln.
  destruct (compat_nlimbs n (mp_len t) Hn Lt C) as [NN NV]. fold (nlimbs t) in NN.
  unfold ct_to_montgomery_form_direct_mp. apply wp_bind, wp_test_bit; [auto|lia|]. rewrite Z.bit0_odd, HO, lc_unwrap_chc.
  apply wp_mif; intros E; [discriminate|]. clear E.
  apply wp_bind, wp_compat; [auto|lia|auto|]. apply wp_mif; intros E; [discriminate|]. clear E.
  apply wp_bind, wp_dassert; [apply Z.leb_le; lia|].
  apply wp_bind, wp_new_div; auto. intros d Hd. unfold ct_montgomery_radix_shift_len.
  pf (align_rng (mp_len n)) as AR.
  destruct (byte_len_ex (mpval n) NP) as (k & BL & BM).
  assert (HU : mp_len t + ct_mp_limbs_align_len (mp_len n) + LB < 2 ^ UW).
  { pose proof (proj2 Ht) as X0. pose proof (proj2 Hn) as X1. pose proof UW_big as X2. assert (X3 : LB <= 8) by (unfold LB; destruct (limb64 c); lia).
    clear - AR X0 X1 X2 X3 Ln Lt. change (2 ^ 32) with 4294967296 in X2. lia. }
  destruct (lsh_mod_correct c t (mp_len t) (ct_mp_limbs_align_len (mp_len n)) d (mpval n) k) as [X _]; auto; try lia.
  { apply mpval_bound; auto. }
  pf (BM (mp_len t)) as BM'.
  apply wp_bind. eapply yields_wp; [apply X; lia|]. intros (r, t') (-> & HB). apply wp_ret. rewrite mg_radix_256 in HQ. apply HQ. auto.
Qed.

Lemma shrunk_pow : forall r n v, mp_ok n -> len_compat n (mp_len r) -> v < 256 ^ mp_len n -> v < 256 ^ mp_len r -> v < 256 ^ shrunk_len r (mp_len n).
Proof.
  intros r n v Hn HC H1 H2. destruct (shrunk_n r n Hn HC) as (_ & SL & _). pose proof (mp_len_nonneg r). pose proof (mp_len_nonneg n).
  assert (256 ^ Z.min (mp_len r) (mp_len n) <= 256 ^ shrunk_len r (mp_len n)) by (apply Z.pow_le_mono_r; lia).
  destruct (Z.min_spec (mp_len r) (mp_len n)) as [[? E]|[? E]]; rewrite E in *; lia.
Qed.

(** Taking the view of a result buffer. *)
Lemma wp_view : forall T r n (K : mp -> mp -> M T) (Q : T -> Prop), mp_ok r -> mp_ok n -> len_compat n (mp_len r) ->
  (forall rf r0, mp_ok rf -> same_shape r rf -> mp_ok r0 -> mp_len r0 = shrunk_len r (mp_len n) -> kind_of r0 = kind_of r -> nlimbs r0 = nlimbs n -> mpval n < 256 ^ mp_len r0 ->
     (forall r1 v, becomes r0 r1 v -> becomes r (mp_unshrink rf r1) v) -> wp (K rf r0) Q) ->
  wp (let! rf := clear_bytes_above r (mp_len n) in let! r0 := mp_shrink_to rf (mp_len n) in K rf r0) Q.
Proof.
  intros T r n K Q Hr Hn HC HK. pose proof (mp_len_nonneg r) as Lr. pose proof (mp_len_nonneg n) as Ln.
  apply wp_bind, wp_clear_above; [auto|lia|]. intros rf (Of & Sf & Ef). pf (p256_pos (mp_len n)) as PN.
  apply wp_bind, wp_shrink_to; [auto|lia|rewrite Ef; apply Z.mod_pos_bound; lia|]. intros r0 O0 K0 L0 E0.
  assert (SE : shrunk_len rf (mp_len n) = shrunk_len r (mp_len n)).
  { unfold shrunk_len. rewrite (shape_len _ _ Sf). destruct Sf as [KK _]. destruct r, rf; try discriminate; auto. }
  rewrite SE in L0. destruct (shrunk_n r n Hn HC) as (SN & SL & _). destruct (compat_nlimbs n (mp_len r) Hn Lr HC) as [NN NV].
  apply HK; auto.
  - destruct Sf as [<- _]. auto.
  - unfold nlimbs at 1. rewrite L0. auto.
  - rewrite L0. apply shrunk_pow; auto. apply mpval_bound; auto.
  - intros r1 v (O1 & S1 & E1). destruct (unshrink_spec rf r1) as (O4 & S4 & E4); auto.
    { destruct S1 as [-> _]. auto. } { rewrite (shape_len _ _ S1), (shape_len _ _ Sf). lia. }
    split; [auto|]. split; [eapply shape_trans; eauto|]. rewrite E4, E1. rewrite Z.div_small; [lia|].
    pose proof (mpval_bound r0 O0) as B0. rewrite (shape_len _ _ S1). lia.
Qed.

Lemma wp_radix2 : forall r n (Q : result unit mg_err * mp -> Prop), mp_ok r -> mp_ok n -> Z.odd (mpval n) = true ->
  len_compat n (mp_len r) -> 16 * (mp_len n + LB) + 8 < 2 ^ UW ->
  (forall r', becomes r r' ((mg_radix n * mg_radix n) mod mpval n) -> Q (Ok tt, r')) ->
  wp (ct_montgomery_radix2_mod_n_mp r n) Q.
Proof.
  intros r n Q Hr Hn HO C HU HQ. destruct (odd_nlimbs n Hn HO) as [N0 NP]. pose proof (mp_len_nonneg r) as Lr. pose proof (mp_len_nonneg n) as Ln.
  unfold ct_montgomery_radix2_mod_n_mp. apply wp_bind, wp_test_bit; [auto|lia|]. rewrite Z.bit0_odd, HO, lc_unwrap_chc.
  apply wp_mif; intros E; [discriminate|]. clear E.
  apply wp_bind, wp_compat; [auto|lia|auto|]. apply wp_mif; intros E; [discriminate|]. clear E.
  apply wp_view with (K := fun full out => dassert (nlimbs out =? nlimbs n) ;; _); auto. intros rf r0 Of Sf O0 L0 K0 Nn NV HU0.
  apply wp_bind, wp_dassert; [apply Z.eqb_eq; auto|].
  apply wp_bind, wp_new_div; auto. intros d Hd. unfold ct_montgomery_radix_shift_len.
  pf (align_rng (mp_len n)) as AR. destruct (byte_len_ex (mpval n) NP) as (k & BL & BM).
  set (a := ct_mp_limbs_align_len (mp_len n)) in *.
  assert (HE : pow2_exp_ok (2 * 8 * a)) by (left; lia).
  destruct (pow2_mod_correct c (2 * 8 * a) r0 d (mpval n) k) as [X _]; auto; try lia.
  pf (BM (mp_len r0)) as BM'. pose proof (mp_len_nonneg r0).
  apply wp_bind. eapply yields_wp; [apply X; lia|]. intros (x, r1) (-> & HB). apply wp_ret. apply HQ. apply HU0.
  rewrite mg_radix_256. fold a. rewrite <- Z.pow_add_r by lia. change 256 with (2 ^ 8). rewrite <- Z.pow_mul_r by lia.
  replace (8 * (a + a)) with (2 * 8 * a) by lia. auto.
Qed.

(** ** Montgomery form *)
Definition inform (n : mp) (x v : Z) : Prop := 0 <= v < mpval n /\ v mod mpval n = (x * mg_radix n) mod mpval n.

Lemma odd_coprime2 : forall v, Z.odd v = true -> rel_prime v 2.
Proof.
  intros v H. apply bezout_rel_prime. apply Z.odd_spec in H. destruct H as [m H]. apply Bezout_intro with 1 (- m). lia.
Qed.
Lemma radix_coprime : forall n, Z.odd (mpval n) = true -> Z.gcd (mpval n) (mg_radix n) = 1.
Proof.
  intros n HO. rewrite mg_radix_256. change 256 with (2 ^ 8). pose proof (mp_len_nonneg n) as Ln. pf (align_rng (mp_len n)). rewrite <- Z.pow_mul_r by lia.
  apply Zgcd_1_rel_prime. apply Zpow_facts.rel_prime_Zpower_r; [lia|]. apply odd_coprime2; auto.
Qed.
Lemma mod_eq_div : forall a b n, 0 < n -> a mod n = b mod n -> (n | a - b).
Proof. intros a b n Hn H. apply Z.mod_divide; [lia|]. rewrite Zminus_mod, H, Z.sub_diag. apply Z.mod_0_l. lia. Qed.
Lemma div_mod_eq : forall a b n, 0 < n -> (n | a - b) -> a mod n = b mod n.
Proof. intros a b n Hn [k H]. replace a with (b + k * n) by lia. apply Z.mod_add. lia. Qed.
Lemma radix_cancel : forall n a b, Z.odd (mpval n) = true -> 0 < mpval n -> (a * mg_radix n) mod mpval n = (b * mg_radix n) mod mpval n -> a mod mpval n = b mod mpval n.
Proof.
  intros n a b HO HN H. apply div_mod_eq; auto. apply (Z.gauss _ (mg_radix n)); [|apply radix_coprime; auto].
  replace (mg_radix n * (a - b)) with (a * mg_radix n - b * mg_radix n) by ring. apply mod_eq_div; auto.
Qed.

Lemma reduced_inform : forall n a b x y v, Z.odd (mpval n) = true -> 0 < mpval n -> inform n x a -> inform n y b -> mg_reduced n (a * b) v -> inform n (x * y) v.
Proof.
  intros n a b x y v HO HN (_ & Ha) (_ & Hb) (HV & HE). split; [auto|]. apply radix_cancel; auto. rewrite HE.
  rewrite Z.mul_mod, Ha, Hb, <- Z.mul_mod by lia. f_equal. ring.
Qed.
Lemma inform_unique : forall n x v, inform n x v -> v = (x * mg_radix n) mod mpval n.
Proof. intros n x v (H & <-). rewrite Z.mod_small; auto. Qed.
Lemma inform_intro : forall n x, 0 < mpval n -> inform n x ((x * mg_radix n) mod mpval n).
Proof. intros. split; [apply Z.mod_pos_bound; auto|apply Z.mod_mod; lia]. Qed.

(** ** Views and room *)
Lemma room_view : forall r r0 n, mp_ok n -> len_compat n (mp_len r) -> mp_len r0 = shrunk_len r (mp_len n) -> kind_of r0 = kind_of r -> mg_room r n -> mg_room r0 n.
Proof.
  intros r r0 n Hn HC HL HK HR. destruct (shrunk_n r n Hn HC) as (_ & SL & SE). pose proof (mp_len_nonneg r). pose proof (mp_len_nonneg n).
  destruct HR as [HR|HR].
  - left. pose proof (SE HR). split; [lia|]. rewrite HK. apply HR.
  - right. etransitivity; [exact HR|]. apply mul_le_l; [|apply Z.pow_le_mono_r; lia].
    unfold mg_radix. pf (Bpow_pos (nlimbs n)); pose proof (nlimbs_nonneg n); lia.
Qed.
Lemma compat_view : forall r r0 n, mp_ok n -> len_compat n (mp_len r) -> mp_len r0 = shrunk_len r (mp_len n) -> kind_of r0 = kind_of r -> len_compat n (mp_len r0).
Proof.
  intros r r0 n Hn HC HL HK. destruct (shrunk_n r n Hn HC) as (SN & SL & SE). rewrite HL. pose proof (mp_len_nonneg r). pose proof (mp_len_nonneg n).
  destruct HC as [HC|(K & L & V)]; [left; lia|].
  destruct (Z_le_gt_dec (mp_len n) (shrunk_len r (mp_len n))); [left; auto|right]. split; [auto|]. split; [lia|].
  apply shrunk_pow; auto; [right; auto|apply mpval_bound; auto].
Qed.
Lemma view_compat : forall r r0 n v, mp_ok n -> len_compat n (mp_len r) -> mp_ok r0 -> mp_len r0 = shrunk_len r (mp_len n) -> kind_of r0 = kind_of r ->
  mpval r0 = v -> v < mpval n -> len_compat r0 (mp_len n).
Proof.
  intros r r0 n v Hn HC H0 HL HK HV HN. pose proof (mpval_bound n Hn) as BN. pose proof (mp_len_nonneg r). pose proof (mp_len_nonneg n). unfold shrunk_len in HL.
  destruct (supports_unaligned r) eqn:U; [left; lia|]. right. apply unal_KNE in U. split; [congruence|]. split; [|lia].
  pf (align_rng (Z.min (mp_len n) (mp_len r))) as AR. lia.
Qed.
Lemma shape_compat : forall r r1 n, same_shape r r1 -> mp_ok r1 -> mp_ok n -> len_compat r (mp_len n) -> mpval r1 < mpval n -> len_compat r1 (mp_len n).
Proof.
  intros r r1 n [K L] H1 Hn H HV. pose proof (mpval_bound n Hn). destruct H as [H|(K' & H & _)]; [left; lia|right]. split; [congruence|]. split; lia.
Qed.
Lemma shape_room : forall r r1 n, same_shape r r1 -> mg_room r n -> mg_room r1 n.
Proof. intros r r1 n [K L] H. unfold mg_room, same_bytes in *. rewrite K, L. auto. Qed.

(** Multiplication in Montgomery form. *)
Lemma wp_mul_form : forall r op0 op1 n g x y (Q : Monad.result unit mg_err * mp -> Prop), mp_ok r -> mp_ok op0 -> mp_ok op1 -> mp_ok n ->
  Z.odd (mpval n) = true -> neg_inv n g -> len_compat n (mp_len r) -> len_compat op0 (mp_len n) -> len_compat op1 (mp_len n) ->
  inform n x (mpval op0) -> inform n y (mpval op1) -> 0 < mp_len op1 -> mg_carry_ok n -> mg_room r n ->
  (forall r' v, becomes r r' v -> inform n (x * y) v -> Q (Ok tt, r')) ->
  wp (ct_montgomery_mul_mod_mp_mp r op0 op1 n g) Q.
Proof.
  intros r op0 op1 n g x y Q Hr H0 H1 Hn HO HG C C0 C1 F0 F1 L1 HC HR HQ. destruct (odd_nlimbs n Hn HO) as [N0 NP].
  pose proof F0 as [V0 _]. pose proof F1 as [V1 _]. pose proof B_gt.
  apply wp_mg_mul; auto; try lia.
  - unfold mg_carry_ok in HC. pf (mul_le_l B (mpval op1) (mpval n)). lia.
  - destruct HR as [HR|HR]; [auto|right]. pf (mul_le_l (mpval op0) (mpval op1) (mpval n)). pf (mul_le_l (mpval n) (mpval op0) (mpval n)). lia.
  - intros r' v HB HV. apply (HQ r' v); auto. eapply reduced_inform; eauto.
Qed.

(** ** Exponentiation *)
Lemma scratch_view : forall s n s0, mp_ok n -> ct_mp_nlimbs (mp_len n) <= zlen s -> mp_len s0 = shrunk_len (NE s) (mp_len n) -> mp_len s0 = ct_mp_limbs_align_len (mp_len n).
Proof.
  intros s n s0 Hn HL E. rewrite E. unfold shrunk_len. cbn [supports_unaligned mp_len]. pose proof (mp_len_nonneg n). pf (ct_mp_nlimbs_spec (mp_len n)) as NS. pose proof LB_pos.
  rewrite Z.min_l; [auto|]. pf (mul_le_l LB (ct_mp_nlimbs (mp_len n)) (zlen s)). lia.
Qed.
Lemma scratch_compat : forall s n, mp_ok n -> ct_mp_nlimbs (mp_len n) <= zlen s -> len_compat n (mp_len (NE s)).
Proof.
  intros s n Hn HL. left. cbn [mp_len]. pose proof (ct_mp_nlimbs_spec (mp_len n) (mp_len_nonneg n)) as NS. pose proof LB_pos.
  pf (mul_le_l LB (ct_mp_nlimbs (mp_len n)) (zlen s)). lia.
Qed.

Lemma exp_bit : forall e k i, 0 <= i < k -> let E := e mod 2 ^ k in
  E / 2 ^ (k - (i + 1)) = 2 * (E / 2 ^ (k - i)) + b2z (Z.testbit e (k - i - 1)).
Proof.
  intros e k i Hi E. replace (k - (i + 1)) with (k - i - 1) by lia. set (p := k - i - 1). replace (k - i) with (p + 1) by lia.
  assert (Hp : 0 <= p < k) by lia. replace (Z.testbit e p) with (Z.testbit E p) by (apply Z.mod_pow2_bits_low; lia).
  rewrite Z.pow_add_r by lia. change (2 ^ 1) with 2. rewrite <- Z.div_div by (try apply pow2_gt0; lia).
  rewrite Z.testbit_odd, Z.shiftr_div_pow2 by lia. set (x := E / 2 ^ p). pose proof (Zmod_odd x) as D. pose proof (Z.div_mod x 2 ltac:(lia)).
  destruct (Z.odd x); cbn [b2z]; lia.
Qed.

Lemma wp_exp_loop : forall r op0 n g e nbits s b (Q : mp * list Z -> Prop), mp_ok r -> mp_ok op0 -> mp_ok n -> mp_ok e -> mp_ok (NE s) ->
  Z.odd (mpval n) = true -> neg_inv n g -> nlimbs r = nlimbs n -> len_compat n (mp_len r) -> len_compat r (mp_len n) -> mpval n < 256 ^ mp_len r ->
  mp_len r <= ct_mp_limbs_align_len (mp_len n) -> ct_mp_nlimbs (mp_len n) <= zlen s ->
  len_compat op0 (mp_len n) -> 0 < mp_len op0 -> inform n b (mpval op0) -> inform n 1 (mpval r) ->
  mg_carry_ok n -> mg_room r n -> mg_room (NE s) n -> 0 <= nbits ->
  (forall r' v s', becomes r r' v -> inform n (b ^ (mpval e mod 2 ^ nbits)) v -> mp_ok (NE s') -> zlen s' = zlen s -> Q (r', s')) ->
  wp (mg_exp_loop r op0 n g e nbits s) Q.
Proof.
  intros r op0 n g e nbits s b Q Hr H0 Hn He Hs HO HG Nr C C' NV LA LS C0 L0 F0 F1 HC HR HRs Hb HQ.
  destruct (odd_nlimbs n Hn HO) as [N0 NP]. pose proof LB_pos as LP.
  unfold mg_exp_loop. apply wp_bind, wp_dassert; [apply Z.eqb_eq; auto|]. apply wp_bind, wp_dassert; [apply Z.leb_le; auto|].
  apply wp_view with (r := NE s) (K := fun sf s0 => _); auto; [apply scratch_compat; auto|].
  intros sf s0 Of Sf Os L1 K1 N1 V1 HU. pose proof (scratch_view s n s0 Hn LS L1) as L2.
  pose proof (align_rng (mp_len n) (mp_len_nonneg n)) as AR.
  pose proof (scratch_compat s n Hn LS) as CS.
  pose proof (compat_view (NE s) s0 n Hn CS L1 K1) as C1.
  pose proof (room_view (NE s) s0 n Hn CS L1 K1 HRs) as HR1.
  assert (CS' : forall s1, same_shape s0 s1 -> mp_ok s1 -> mpval s1 < mpval n -> len_compat s1 (mp_len n)).
  { intros s1 S1 O1 V. destruct S1 as [K L]. pose proof (mpval_bound n Hn). right. split; [rewrite K, K1; auto|]. split; lia. }
  assert (LR : 0 < mp_len r).
  { pose proof (nlimbs_spec r). pose proof (mp_len_nonneg r). destruct (Z.eq_dec (mp_len r) 0) as [E|E]; [|lia]. rewrite E in *. lia. }
  set (k := Z.min nbits (8 * mp_len e)). pose proof (mp_len_nonneg e) as Le. assert (Hk : 0 <= k) by lia.
  assert (EK : mpval e mod 2 ^ nbits = mpval e mod 2 ^ k).
  { unfold k. destruct (Z.min_spec nbits (8 * mp_len e)) as [[? ->]|[? ->]]; auto. pose proof (mpval_bound e He) as BE.
    rewrite pow256 in BE by lia. assert (2 ^ (8 * mp_len e) <= 2 ^ nbits) by (apply Z.pow_le_mono_r; lia). rewrite !Z.mod_small; lia. }
  set (E := mpval e mod 2 ^ k) in *. pf (pow2_gt0 k) as PK. pf (Z.mod_pos_bound (mpval e) (2 ^ k)) as EB. fold E in EB.
  apply wp_bind. apply wp_for with (I := fun i '(r', s') => mp_ok r' /\ same_shape r r' /\ mp_ok s' /\ same_shape s0 s' /\ inform n (b ^ (E / 2 ^ (k - i))) (mpval r')); [auto| | |].
  { split; [auto|]. split; [apply shape_refl|]. split; [auto|]. split; [apply shape_refl|]. rewrite Z.sub_0_r, Z.div_small by auto. auto. }
  { intros i (r1, s1) Hi (O1 & S1 & O2 & S2 & F). pose proof F as [RV _].
    apply wp_bind. apply wp_mul_form with (x := b ^ (E / 2 ^ (k - i))) (y := b ^ (E / 2 ^ (k - i))); auto; try (rewrite ?(shape_len _ _ S1), ?(shape_len _ _ S2); auto).
    { apply (shape_compat r); auto. lia. } { apply (shape_compat r); auto. lia. } { apply (shape_room s0); auto. }
    intros s2 vs (O3 & S3 & E3) F3. rewrite <- E3 in F3. clear vs E3. apply wp_bind. cbn [unwrap]. apply wp_ret. pose proof F3 as [SV _].
    pose proof (shape_trans _ _ _ S2 S3) as S3'.
    apply wp_bind. eapply wp_mul_form with (y := b); [exact O1|exact O3|exact H0|auto|auto|auto| | |auto|exact F3|auto|auto|auto| |].
    { rewrite (shape_len _ _ S1). auto. } { apply CS'; auto. lia. } { apply (shape_room r); auto. }
    intros r2 vr (O4 & S4 & E4) F4. rewrite <- E4 in F4. clear vr E4. apply wp_bind. cbn [unwrap]. apply wp_ret. pose proof F4 as [RV4 _].
    pose proof (shape_trans _ _ _ S1 S4) as S4'.
    apply wp_bind, wp_test_bit; [auto|lia|]. rewrite lc_not_chc.
    apply wp_bind, wp_copy_from_cond; [auto|auto|rewrite (shape_len _ _ S4'); lia|right; rewrite (shape_len _ _ S4'), (shape_len _ _ S3'); lia|].
    intros r3 O5 S5 E5. apply wp_ret. split; [auto|]. split; [eapply shape_trans; eauto|]. split; [auto|]. split; [auto|].
    rewrite E5. unfold E. rewrite exp_bit by auto. fold E. set (q := E / 2 ^ (k - i)) in *.
    assert (Hq : 0 <= q) by (apply Z.div_pos; [lia|apply pow2_gt0; lia]).
    destruct (Z.testbit (mpval e) (k - i - 1)); cbn [negb b2z].
    - rewrite Z.pow_add_r, Z.pow_1_r by lia. replace (2 * q) with (q + q) by lia. rewrite Z.pow_add_r by lia. auto.
    - rewrite Z.add_0_r. replace (2 * q) with (q + q) by lia. rewrite Z.pow_add_r by lia. auto. }
  intros (r1, s1) (O1 & S1 & O2 & S2 & F). rewrite Z.sub_diag in F. change (2 ^ 0) with 1 in F. rewrite Z.div_1_r in F.
  destruct (HU s1 (mpval s1)) as (O3 & [K3 L3] & _). { split; [auto|]. split; auto. }
  destruct (mp_unshrink sf s1) as [l|l|l]; try discriminate. cbn [mp_len] in L3. apply wp_ret.
  apply (HQ _ (mpval r1)); auto.
  - split; [auto|]. split; auto.
  - rewrite EK. auto.
  - apply (Z.mul_reg_r _ _ LB); lia.
Qed.
End Facts.
