(** Moduli of a single limb: where Montgomery reduction (montgomery_impl.rs) panics, and where it does not. *)
From Coq Require Import ZArith List Bool Lia.
Require Import Verif.Spec Verif.Base Verif.Monad Verif.Wp Verif.Pan Verif.ModelLimb Verif.LimbFacts Verif.LimbFacts2
  Verif.ModelBuf Verif.SpecBuf Verif.BufFacts Verif.BufFacts2 Verif.BufFacts3 Verif.BufProofs Verif.UpFacts Verif.ModelCmp Verif.CmpFacts
  Verif.ModelAdd Verif.AddFacts Verif.AddFacts2 Verif.ModelDiv Verif.SpecDiv Verif.DivFacts4 Verif.DivProofs Verif.DivProofs2
  Verif.SpecMont Verif.ModelMont Verif.MontFacts Verif.MontFacts2 Verif.MontFacts3 Verif.MontFacts4 Verif.MontFacts5 Verif.MontFacts6 Verif.MontProofs.
Import ListNotations.
Open Scope Z_scope.

Section S.
Context {c : cfg}.

(** Loading a second limb from a buffer of one. *)
Lemma load_full_1_pan : forall b, mp_ok b -> mp_len b <= LB -> panics (load_l_full b 1).
Proof.
  intros b Hb HL. pose proof LB_pos. pose proof UW_gt as UG. assert (L8 : LB <= 8) by (destruct LB_cases; lia).
  unfold load_l_full. apply pan_any. intros [] _. destruct b as [l|l|l]; cbn [mp_len] in HL; pose proof (zlen_nonneg _ l).
  - unfold be_mp_load_l_full. apply pan_any. intros [] _. rewrite Z.mul_1_l. apply pan_any. intros e HE.
    assert (X : e = 0 \/ 2 ^ UW - LB <= e < 2 ^ UW).
    { destruct (Z.eq_dec (zlen l) LB) as [Q|Q]; [|apply usub_neg in HE; lia]. left. unfold usub in HE. rewrite Q, Z.leb_refl, Z.sub_diag in HE.
      injection HE as <-. auto. }
    unfold _be_mp_load_l_full. apply pan_any. intros s HS. apply pan_l, pan_slice.
    destruct X as [->|X]; [apply usub_neg in HS; lia|]. lia.
  - unfold le_mp_load_l_full. apply pan_any. intros [] _. apply pan_l, pan_slice. lia.
  - apply pan_znth. assert (zlen l <= 1); [|lia]. apply (Z.mul_le_mono_pos_r _ _ LB); lia.
Qed.
Lemma load_1_pan : forall b, mp_ok b -> mp_len b <= LB -> (kind_of b = KNE \/ mp_len b < LB) -> panics (load_l b 1).
Proof.
  intros b Hb HL HK. pose proof LB_pos. pose proof UW_gt as UG. assert (L8 : LB <= 8) by (destruct LB_cases; lia).
  unfold load_l. apply pan_any. intros [] _. destruct b as [l|l|l]; cbn [mp_len kind_of] in *; pose proof (zlen_nonneg _ l).
  - destruct HK as [HK|HK]; [discriminate|].
    unfold be_mp_load_l. apply pan_any. intros [] _. rewrite Z.mul_1_l. apply pan_any. intros e HE. apply usub_neg in HE; [|lia|lia].
    apply pan_mif; intros E; [|apply Z.leb_gt in E; lia].
    unfold _be_mp_load_l_full. apply pan_any. intros s HS. apply pan_l, pan_slice. lia.
  - destruct HK as [HK|HK]; [discriminate|].
    unfold le_mp_load_l. apply pan_any. intros [] _. apply pan_mif; intros E; [apply Z.leb_le in E; lia|].
    unfold _le_mp_load_l_high_partial. apply pan_any. intros e HE. rewrite Z.mul_1_l in HE. apply usub_neg in HE; [|lia|lia].
    apply pan_l, pan_slice. rewrite zlen_zrepeat by lia. lia.
  - apply pan_znth. assert (zlen l <= 1); [|lia]. apply (Z.mul_le_mono_pos_r _ _ LB); lia.
Qed.
(** A byte buffer of just one limb has a second one: 0, but for the debug assertion on little-endian ones. *)
Lemma wp_load_1_zero : forall b (Q : Z -> Prop), debug c = false -> mp_ok b -> mp_len b = LB -> kind_of b <> KNE -> Q 0 -> wp (load_l b 1) Q.
Proof.
  intros b Q D Hb HL HK HQ. pose proof LB_pos as LP.
  assert (ZZ : splice (zrepeat 0 LB) 0 [] = zrepeat 0 LB /\ splice (zrepeat 0 LB) LB [] = zrepeat 0 LB).
  { destruct LB_cases as [E|E]; rewrite E; split; reflexivity. }
  destruct ZZ as [Z1 Z2]. unfold load_l. apply wp_bind, wp_tick. destruct b as [l|l|l]; cbn [mp_len kind_of] in *; [| |congruence].
  - unfold be_mp_load_l. apply wp_bind. unfold dassert. rewrite D. apply wp_ret. rewrite HL, Z.mul_1_l.
    apply wp_bind, wp_usub; [lia|]. rewrite Z.sub_diag. apply wp_mif; intros E; [apply Z.leb_le in E; lia|].
    unfold _be_mp_load_l_high_partial. apply wp_bind, wp_usub; [lia|]. rewrite Z.sub_0_r.
    apply wp_bind. unfold slice. replace ((0 <=? 0) && (0 <=? 0) && (0 <=? zlen l)) with true.
    2:{ symmetry. cbn [andb Z.leb]. apply Z.leb_le. lia. }
    apply wp_ret. apply wp_ret. rewrite Z.sub_diag. cbn [Z.to_nat firstn]. rewrite Z2. unfold be_val, zrepeat.
    replace (le_val (rev (repeat 0 (Z.to_nat LB)))) with 0; auto.
    destruct LB_cases as [E2|E2]; rewrite E2; reflexivity.
  - unfold le_mp_load_l. apply wp_bind. unfold dassert. rewrite D. apply wp_ret. rewrite HL, Z.mul_1_l.
    apply wp_mif; intros E; [apply Z.leb_le in E; lia|].
    unfold _le_mp_load_l_high_partial. rewrite HL. apply wp_bind, wp_usub; [lia|]. rewrite Z.sub_diag.
    apply wp_bind. unfold slice at 1. rewrite zlen_zrepeat by lia. replace ((0 <=? 0) && (0 <=? 0) && (0 <=? LB)) with true.
    2:{ symmetry. cbn [andb Z.leb]. apply Z.leb_le. lia. }
    apply wp_ret. apply wp_bind. unfold slice. replace ((0 <=? LB) && (LB <=? LB) && (LB <=? zlen l)) with true.
    2:{ symmetry. rewrite HL, Z.leb_refl. replace (0 <=? LB) with true; [auto|]. symmetry. apply Z.leb_le. lia. }
    apply wp_ret. apply wp_ret. rewrite Z.sub_diag. cbn [Z.to_nat firstn]. rewrite Z1. unfold zrepeat.
    replace (le_val (repeat 0 (Z.to_nat LB))) with 0; auto. destruct LB_cases as [E2|E2]; rewrite E2; reflexivity.
Qed.

(** ** Reduction *)
Definition redc1_bad (t n : mp) : Prop := debug c = true \/ nlimbs t = 1 \/ kind_of n = KNE \/ mp_len n < LB.

Lemma nlimbs1_len : forall b, mp_ok b -> nlimbs b = 1 -> 0 < mp_len b <= LB.
Proof. intros b Hb H. pose proof (nlimbs_spec b) as NS. pose proof LB_pos. pose proof (mp_len_nonneg b). rewrite H in NS. lia. Qed.

Lemma redc_step_pan : forall t n n0 g st, mp_ok t -> mp_ok n -> nlimbs n = 1 -> 1 <= nlimbs t -> redc1_bad t n ->
  same_shape t (fst (fst st)) -> mp_ok (fst (fst st)) -> panics (redc_step n n0 g (nlimbs t) (nlimbs n) st).
Proof.
  intros t n n0 g ((t1, cy), sh) Ht Hn N1 Nt HB HS O1. cbn [fst] in *. pose proof (nlimbs1_len n Hn N1) as L1.
  unfold redc_step. rewrite N1. apply pan_any. intros t0 _. apply pan_any. intros k _.
  apply pan_any. intros (t2, k2) HF. change (1 - 2) with (-1) in HF. 
  assert (E2 : t2 = t1). { unfold zfor, returns in HF. cbn in HF. congruence. } subst t2. clear HF.
  change (Z.max 0 (1 - 2)) with 0. change (0 + 2) with 2. change (0 + 1) with 1.
  destruct (debug c) eqn:D. { apply pan_l. apply pan_dassert; auto. }
  apply pan_any. intros [] _. destruct HB as [HB|[HB|HB]]; [congruence| |].
  - apply pan_l. rewrite HB. change (negb (2 =? 1)) with true. apply pan_mif; [intros _|discriminate]. apply load_full_1_pan; auto.
    apply nlimbs1_len; auto. rewrite (shape_nlimbs _ _ HS). auto.
  - apply pan_any. intros tv _. apply pan_l. apply load_1_pan; auto; lia.
Qed.

Lemma redc1_pan : forall t n g, mp_ok t -> mp_ok n -> Z.odd (mpval n) = true -> nlimbs n = 1 ->
  len_compat n (mp_len t) -> len_compat t (2 * mp_len n) -> redc1_bad t n -> panics (ct_montgomery_redc_mp t n g).
Proof.
  intros t n g Ht Hn HO N1 C1 C2 HB. pose proof (mp_len_nonneg t) as Lt. pose proof (mp_len_nonneg n) as Ln.
  destruct (compat_nlimbs n (mp_len t) Hn Lt C1) as [NN _]. fold (nlimbs t) in NN.
  unfold ct_montgomery_redc_mp. apply pan_mif; intros E. { rewrite empty_nlimbs in E. apply Z.eqb_eq in E. lia. } clear E.
  apply pan_wp, wp_load; [auto|lia|]. rewrite limb_vlimb. apply pan_wp. rewrite odd_land by apply vlimb_isl. rewrite vlimb0_odd, HO. cbn [b2z].
  apply wp_eq_l; [apply isl_1|apply isl_0|]. rewrite lc_unwrap_chc. apply pan_mif; intros E; [discriminate|]. clear E.
  apply pan_wp, wp_compat; [auto|lia|auto|]. apply pan_mif; intros E; [discriminate|]. clear E.
  apply pan_wp, wp_compat; [auto|lia|auto|]. apply pan_mif; intros E; [discriminate|]. clear E.
  apply pan_any. intros [] _. apply pan_any. intros l _. apply pan_any. intros sh _. apply pan_l.
  unfold ct_montgomery_radix_shift_mp_nlimbs. change (ct_mp_nlimbs (mp_len n)) with (nlimbs n). rewrite N1.
  apply pan_for; [lia|]. rewrite <- N1. apply redc_step_pan; auto; cbn [fst]; [lia|apply shape_refl].
Qed.

(** One round modulo a single limb held by a byte buffer of just that length. *)
Lemma wp_redc_step1 : forall t n n0 g sh cy (Q : mp * Z * Z -> Prop), debug c = false -> mp_ok t -> mp_ok n -> nlimbs t = 2 -> mp_len n = LB -> kind_of n <> KNE ->
  n0 = vlimb (mpval n) 0 -> isl g -> lwmul n0 g = B - 1 -> isl sh -> (cy = 0 \/ cy = 1) ->
  (forall t' cy' sh' m, mp_ok t' -> same_shape t t' -> (cy' = 0 \/ cy' = 1) -> isl sh' -> 0 <= m < B ->
     B * acc t' 1 sh' cy' = acc t 1 sh cy + m * mpval n -> Q (t', cy', sh')) ->
  wp (redc_step n n0 g 2 1 (t, cy, sh)) Q.
Proof.
  intros t n n0 g sh cy Q D Ht Hn Nt Ln KN En0 Hg Hi Hsh Hcy HQ.
  set (V0 := mpval t). set (N := mpval n) in *. set (T := accT V0 1 sh).
  assert (N1 : nlimbs n = 1). { unfold nlimbs. rewrite Ln. unfold ct_mp_nlimbs. pose proof LB_pos. symmetry. apply Z.div_unique with (LB - 1); lia. }
  pose proof (mpval_bound_B n Hn) as NB. rewrite N1 in NB. fold N in NB.
  assert (HN : 0 <= N < B ^ (1 + 1)). { assert (B ^ 1 <= B ^ (1 + 1)) by (apply Z.pow_le_mono_r; [apply B_pos|lia]). lia. }
  assert (NZ : 0 = vlimb N (0 + 1)). { symmetry. apply vlimb_out with 1; [auto|lia]. }
  assert (TL : vlimb T 0 = vlimb V0 0) by (apply accT_lo; auto; lia).
  assert (TH : vlimb T 1 = sh) by (apply accT_hi; auto; lia).
  unfold redc_step. apply wp_bind, wp_load; [auto|lia|]. rewrite limb_vlimb. fold V0. rewrite <- TL.
  apply wp_bind, wp_kstart with (N := N); auto; [apply vlimb_isl|]. intros m k HK. pose proof (kinv_m _ _ _ _ _ _ HK) as Hm.
  assert (HK0 : kinv (T mod B ^ (0 + 1)) N m 0 0 k).
  { change (0 + 1) with 1. rewrite Z.pow_1_r. replace (vlimb T 0) with (T mod B) in HK; [auto|]. unfold vlimb. change (B ^ 0) with 1. rewrite Z.div_1_r. auto. }
  clear HK. apply wp_bind, wp_for_empty; [lia|]. change (Z.max 0 (1 - 2)) with 0.
  apply wp_bind. unfold dassert at 1. rewrite D. apply wp_ret. change (0 + 2) with 2. change (negb (2 =? 2)) with false.
  apply wp_bind, wp_bind, wp_tick, wp_ret. change (0 + 1) with 1.
  apply wp_bind, wp_load_1_zero; auto. apply wp_bind. eapply wp_kupdate; [exact HK0|lia|exact Hsh|exact NZ|]. intros k2 r2 Hr2 HK2.
  rewrite <- TH in HK2 at 1. change (0 + 1) with 1 in HK2. rewrite <- (vmod_S T 1) in HK2 by lia.
  rewrite Z.mod_small in HK2 by (apply accT_rng; auto; lia).
  apply wp_bind. eapply wp_up_store_full; [apply (upinv_init t Ht)|lia|apply full_inner; lia|auto|]. intros t2 HU2.
  apply wp_bind, wp_for_empty; [lia|]. change (Z.max 1 (2 - 2)) with 1. apply wp_bind, wp_usub; [lia|].
  change (1 + 1 =? 2 - 1) with false. apply wp_bind, wp_bind, wp_tick, wp_ret. apply wp_bind. unfold dassert. rewrite D. apply wp_ret.
  apply wp_bind. eapply wp_kfinish; [exact HK2|lia|destruct Hcy as [->| ->]; [apply isl_0|apply isl_1]|auto|].
  intros cy' sh' Hc' Hs' HE. apply wp_ret. apply (HQ _ _ _ m); auto.
  - apply (upinv_ok _ _ _ _ _ HU2).
  - apply (upinv_shape _ _ _ _ _ HU2).
  - change (0 + 1) with 1 in HU2. rewrite (acc_upinv _ _ _ _ _ _ _ HU2), HE, acc_accT. fold V0 T. ring.
Qed.

Lemma wp_redc1 : forall t n g (Q : result unit mg_err * mp -> Prop), debug c = false -> mp_ok t -> mp_ok n -> Z.odd (mpval n) = true ->
  mp_len n = LB -> kind_of n <> KNE -> 2 <= nlimbs t ->
  neg_inv n g -> len_compat n (mp_len t) -> len_compat t (2 * mp_len n) -> mpval t < mpval n * mg_radix n ->
  (forall t' v, becomes t t' v -> mg_reduced n (mpval t) v -> Q (Ok tt, t')) ->
  wp (ct_montgomery_redc_mp t n g) Q.
Proof.
  intros t n g Q D Ht Hn HO LN KN Nt2 HG C1 C2 HT HQ. destruct (odd_nlimbs n Hn HO) as [N0 NP]. destruct (neg_inv_lwmul n g HG) as [HL Hg].
  pose proof (mp_len_nonneg t) as Lt. pose proof (mp_len_nonneg n) as Ln. pose proof LB_pos as LP.
  assert (N1 : nlimbs n = 1). { unfold nlimbs. rewrite LN. unfold ct_mp_nlimbs. symmetry. apply Z.div_unique with (LB - 1); lia. }
  destruct (compat_nlimbs n (mp_len t) Hn Lt C1) as [_ NV].
  assert (L2 : 0 <= 2 * mp_len n) by lia. destruct (compat_nlimbs t (2 * mp_len n) Ht L2 C2) as [NN2 _].
  assert (E22 : ct_mp_nlimbs (2 * mp_len n) = 2). { rewrite LN. unfold ct_mp_nlimbs. symmetry. apply Z.div_unique with (LB - 1); lia. }
  assert (Nt : nlimbs t = 2) by lia. clear NN2 E22 Nt2 L2.
  unfold ct_montgomery_redc_mp. apply wp_mif; intros E. { rewrite empty_nlimbs in E. apply Z.eqb_eq in E. lia. } clear E.
  apply wp_bind, wp_load; [auto|lia|]. rewrite limb_vlimb. apply wp_even; [auto|lia|]. rewrite HO, lc_unwrap_chc.
  apply wp_mif; intros E; [discriminate|]. clear E.
  apply wp_bind, wp_compat; [auto|lia|auto|]. apply wp_mif; intros E; [discriminate|]. clear E.
  apply wp_bind, wp_compat; [auto|lia|auto|]. apply wp_mif; intros E; [discriminate|]. clear E.
  apply wp_bind, wp_dassert; [rewrite HL, lnot_eq by apply isl_0; apply Z.eqb_eq; lia|].
  rewrite Nt. apply wp_bind, wp_usub; [lia|]. change (2 - 1) with 1. apply wp_bind, wp_load; [auto|lia|]. rewrite limb_vlimb.
  unfold ct_montgomery_radix_shift_mp_nlimbs. change (ct_mp_nlimbs (mp_len n)) with (nlimbs n). rewrite N1.
  apply wp_bind. apply wp_for with (I := fun i '(t', cy, sh) => mp_ok t' /\ same_shape t t' /\ (cy = 0 \/ cy = 1) /\ isl sh /\
     exists M, 0 <= M < B ^ i /\ B ^ i * acc t' 1 sh cy = mpval t + M * mpval n); [lia| | |].
  { split; [auto|]. split; [apply shape_refl|]. split; [auto|]. split; [apply vlimb_isl|]. exists 0. change (B ^ 0) with 1. split; [lia|].
    rewrite acc_full by (auto; lia). lia. }
  { intros i ((t1, cy1), sh1) Hi (O1 & S1 & Hc1 & Hs1 & M & HM & HE).
    apply wp_redc_step1; auto; [rewrite (shape_nlimbs _ _ S1); auto|].
    intros t2 cy2 sh2 m O2 S2 Hc2 Hs2 Hm HE2. split; [auto|]. split; [eapply shape_trans; eauto|]. split; [auto|]. split; [auto|].
    exists (M + B ^ i * m). pf (Bpow_pos i) as PI. split.
    - rewrite Bpow_S by lia. pf (mul_nn (B ^ i) m). pf (mul_le_l (B ^ i) m (B - 1)). lia.
    - rewrite Bpow_S by lia. replace (B * B ^ i * acc t2 1 sh2 cy2) with (B ^ i * (B * acc t2 1 sh2 cy2)) by ring.
      rewrite HE2. replace (B ^ i * (acc t1 1 sh1 cy1 + m * mpval n)) with (B ^ i * acc t1 1 sh1 cy1 + B ^ i * m * mpval n) by ring. rewrite HE. ring. }
  intros ((t1, cy1), sh1) (O1 & S1 & Hc1 & Hs1 & M & HM & HE). rewrite <- N1 in HM, HE at 1. fold (mg_radix n) in HM, HE.
  assert (RP : 0 < mg_radix n) by (apply Bpow_pos; lia).
  assert (HA : acc t1 1 sh1 cy1 < 2 * mpval n).
  { apply (mul_lt_cancel (mg_radix n)); [auto|]. rewrite HE. pf (mul_le_l (mpval n) M (mg_radix n)). lia. }
  apply wp_bind. change 2 with (1 + 1). apply wp_mg_finish with (p := 1) (A := acc t1 1 sh1 cy1); auto; try (rewrite ?(shape_nlimbs _ _ S1), ?(shape_len _ _ S1)); auto; try lia.
  intros t2 (O2 & S2 & E2). apply wp_ret. apply (HQ _ (acc t1 1 sh1 cy1 mod mpval n)).
  - split; [auto|]. split; [eapply shape_trans; eauto|auto].
  - apply mg_reduced_mod with M; auto.
Qed.

(** ** Exponentiation *)
Lemma exp1_pan : forall r op0 n e nbits s, mp_ok r -> mp_ok op0 -> mp_ok n -> 
  Z.odd (mpval n) = true -> nlimbs n = 1 -> len_compat n (mp_len r) -> len_compat op0 (mp_len n) -> len_compat n (mp_len op0) -> 1 <= zlen s ->
  panics (ct_exp_mod_odd_mp_mp r op0 n e nbits s).
Proof.
  intros r op0 n e nbits s Hr H0 Hn HO N1 C C0 C0' LS.
  destruct (odd_nlimbs n Hn HO) as [N0 NP]. pose proof (mp_len_nonneg r) as Lr. pose proof (mp_len_nonneg n) as Ln. pose proof (mp_len_nonneg op0) as L0.
  pose proof (nlimbs1_len n Hn N1) as L1n.
  assert (HU : 16 * (mp_len n + LB) + 8 < 2 ^ UW) by (pose proof UW_gt; destruct LB_cases; lia).
  unfold ct_exp_mod_odd_mp_mp.
  apply pan_wp, wp_compat; [auto|lia|auto|]. apply pan_mif; intros E; [discriminate|]. clear E.
  apply pan_wp, wp_compat; [auto|lia|auto|]. apply pan_mif; intros E; [discriminate|]. clear E.
  apply pan_any. intros [] _.
  apply pan_wp, wp_compat; [auto|lia|auto|]. apply pan_mif; intros E; [discriminate|]. clear E.
  apply pan_any. intros [] _. change (ct_mp_nlimbs (mp_len n)) with (nlimbs n).
  apply pan_mif; intros E; [apply Z.ltb_lt in E; lia|]. clear E.
  apply pan_wp, wp_neg_inv; auto. intros g HG.
  eapply pan_pair with (P := fun x => mp_ok (snd x) /\ mp_len (snd x) = shrunk_len r (mp_len n) /\ kind_of (snd x) = kind_of r /\ nlimbs (snd x) = nlimbs n).
  { apply wp_view with (K := fun x y => ret (x, y)); auto. intros. apply wp_ret. cbn [snd]. auto. }
  cbn [snd]. intros rf r0 (O0 & L1 & K1 & Nn). pose proof (compat_view r r0 n Hn C L1 K1) as C1.
  apply pan_any. intros [] _. apply pan_wp, wp_radix2; auto. intros r1 (O1 & S1 & E1). apply pan_wp. cbn [unwrap]. apply wp_ret.
  pf (Z.mod_pos_bound (mg_radix n * mg_radix n) (mpval n)) as RB.
  assert (CR : len_compat r1 (mp_len n)).
  { apply (view_compat r r1 n (mpval r1)); auto; [rewrite (shape_len _ _ S1); auto|destruct S1 as [-> _]; auto|lia]. }
  assert (CR2 : len_compat r1 (2 * mp_len n)).
  { destruct CR as [X|(X1 & X2 & X3)]; [left; lia|right]. split; [auto|]. split; [lia|].
    assert (256 ^ mp_len n <= 256 ^ (2 * mp_len n)) by (apply Z.pow_le_mono_r; lia). lia. }
  apply pan_any. intros sf _. apply pan_any. intros s0 _. apply pan_any. intros x _. apply pan_any. intros s1 _. apply pan_any. intros o1 _.
  destruct (mp_unshrink sf s1) as [l|l|l]; [apply pan_panic|apply pan_panic|].
  apply pan_l. apply redc1_pan; auto; [rewrite (shape_len _ _ S1); auto|].
  right; left. rewrite (shape_nlimbs _ _ S1), Nn. auto.
Qed.
End S.

Lemma redc_single : forall (c : cfg) t n g, mp_ok t -> mp_ok n -> Z.odd (mpval n) = true -> nlimbs n = 1 -> neg_inv n g ->
  len_compat n (mp_len t) -> len_compat t (2 * mp_len n) -> mpval t < mpval n * mg_radix n ->
  let works := debug c = false /\ 2 <= nlimbs t /\ kind_of n <> KNE /\ mp_len n = LB in
  (works -> yields (ct_montgomery_redc_mp t n g) (fun '(res, t') => res = Ok tt /\ exists v, becomes t t' v /\ mg_reduced n (mpval t) v)) /\
  (~ works -> panics (ct_montgomery_redc_mp t n g)).
Proof.
  intros c t n g Ht Hn HO N1 HG C1 C2 HV works. split.
  - intros (D & Nt & K & L). apply wp_yields. apply wp_redc1; auto. intros t' v HB HM. split; [auto|]. eauto.
  - intros HW. apply redc1_pan; auto. pose proof (nlimbs1_len n Hn N1) as L1. pose proof (mp_len_nonneg t) as Lt.
    destruct (compat_nlimbs n (mp_len t) Hn Lt C1) as [NN _]. fold (nlimbs t) in NN.
    unfold redc1_bad. destruct (debug c) eqn:D; [auto|]. destruct (Z.eq_dec (nlimbs t) 1) as [E|E]; [auto|].
    assert (KD : kind_of n = KNE \/ kind_of n <> KNE) by (destruct n; cbn; [right|right|left]; congruence).
    destruct KD as [KD|KD]; [auto|]. right; right; right. destruct (Z.eq_dec (mp_len n) LB) as [E2|E2]; [|lia]. exfalso. apply HW.
    repeat split; auto; lia.
Qed.
Lemma exp_single : forall (c : cfg) r op0 n e nbits s, mp_ok r -> mp_ok op0 -> mp_ok n -> 
  Z.odd (mpval n) = true -> nlimbs n = 1 -> len_compat n (mp_len r) -> len_compat op0 (mp_len n) -> len_compat n (mp_len op0) -> 1 <= zlen s ->
  panics (ct_exp_mod_odd_mp_mp r op0 n e nbits s).
Proof. exact @exp1_pan. Qed.
