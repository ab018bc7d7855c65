(** The Miller-Rabin test for any odd candidate: no panic, and the right answer if no product it depends on loses a carry. *)
From Coq Require Import ZArith List Bool Lia Znumtheory.
Require Import Verif.Spec Verif.Monad Verif.Base Verif.Wp Verif.ModelLimb Verif.LimbFacts Verif.LimbFacts2 Verif.ModelBuf Verif.SpecBuf
  Verif.BufFacts Verif.BufFacts2 Verif.BufFacts3 Verif.BufProofs Verif.ModelCmp Verif.CmpFacts Verif.ModelAdd Verif.AddFacts2 Verif.ModelMont Verif.SpecMont Verif.SpecMontValue
  Verif.MontFacts5 Verif.MontFacts6 Verif.MontFine Verif.ModelPrime Verif.SpecPrime Verif.PrimeFacts Verif.PrimeFacts2 Verif.PrimeFacts3 Verif.PrimeProofs.
Import ListNotations.
Open Scope Z_scope.

Section Facts.
Context {c : cfg}.

Lemma is_ffs_eq : forall v s s' d, is_ffs v s -> 0 <= s' -> v = 2 ^ s' * d -> Z.odd d = true -> s = s'.
Proof.
  intros v s s' d (H0 & H1 & H2) Hs E O. pose proof (pow2_gt0 s H0) as P1. pose proof (pow2_gt0 s' Hs) as P2.
  apply Z.mod_divide in H1; [|lia]. destruct H1 as [q H1]. rewrite H1, Z.div_mul, Zmod_odd in H2 by lia. destruct (Z.odd q) eqn:OQ; [|discriminate].
  destruct (Z.lt_trichotomy s s') as [L|[L|L]]; [exfalso|auto|exfalso].
  - replace s' with (s + (1 + (s' - s - 1))) in E by lia. rewrite !Z.pow_add_r, Z.pow_1_r in E by lia.
    assert (q = 2 * (2 ^ (s' - s - 1) * d)) by (apply (Z.mul_reg_r _ _ (2 ^ s)); lia). subst q. rewrite Z.odd_mul in OQ. discriminate.
  - replace s with (s' + (1 + (s - s' - 1))) in H1 by lia. rewrite !Z.pow_add_r, Z.pow_1_r in H1 by lia.
    assert (d = 2 * (2 ^ (s - s' - 1) * q)) by (apply (Z.mul_reg_l _ _ (2 ^ s')); lia). subst d. rewrite Z.odd_mul in O. discriminate.
Qed.

Lemma wp_miller_pform : forall base p radix s0 s1 a (Q : Monad.result Z mr_err -> Prop), mp_ok base -> mp_ok p -> mp_ok radix -> mp_ok (NE s0) -> mp_ok (NE s1) ->
  Z.odd (mpval p) = true -> 2 < mpval p -> len_compat base (mp_len p) -> 0 < mp_len base -> len_compat radix (mp_len p) -> nlimbs radix = nlimbs p ->
  nlimbs p <= zlen s0 -> nlimbs p <= zlen s1 -> inform p a (mpval base) -> inform p 1 (mpval radix) ->
  mg_room (NE s0) p -> mg_room (NE s1) p ->
  (forall b, (mg_exp_fine p a ((mpval p - 1) / 2) (8 * mp_len p - 1) -> (b = true <-> strong_probable_prime (mpval p) a)) ->
     (forall g s d, neg_inv p g -> 0 <= s -> mpval p - 1 = 2 ^ s * d -> Z.odd d = true ->
        b = mr_outcome p g (mpval base) s (mg_radix p mod mpval p) (Z.to_nat (8 * mp_len p - 1))) -> Q (Ok (chc b))) ->
  wp (ct_prime_test_miller_rabin_mp base p radix s0 s1) Q.
Proof.
  intros base p radix s0 s1 a Q Hb Hp Hr H0 H1 HO P2 Cb Lb Cr Nr L0 L1 Fa F1 R0 R1 HQ. unfold ct_prime_test_miller_rabin_mp.
  pose proof (mp_len_nonneg p) as Lp. destruct (odd_nlimbs p Hp HO) as [N0 _]. pose proof (nlimbs_spec p) as NS. pose proof LB_pos as LBP.
  pose proof (mpval_bound p Hp) as BP. pose proof Fa as [Va _]. pose proof F1 as [Vr _].
  apply wp_bind, wp_test_bit; [auto|lia|]. rewrite Z.bit0_odd, HO, lc_unwrap_chc. apply wp_mif; intros E; [discriminate|]. clear E.
  apply wp_bind, wp_compat; auto. apply wp_mif; intros E; [discriminate|]. clear E. apply wp_bind, wp_dassert_lt; [auto|auto|lia|].
  apply wp_bind, wp_compat; auto. apply wp_mif; intros E; [discriminate|]. clear E. apply wp_bind, wp_dassert_lt; [auto|auto|lia|].
  fold (nlimbs p). apply wp_mif; intros E; [lia|]. clear E. apply wp_mif; intros E; [lia|]. clear E.
  pose proof (scratch_compat s0 p Hp L0) as C0. pose proof (scratch_compat s1 p Hp L1) as C1.
  assert (A0 : mp_len p <= mp_len (NE s0)). { cbn [mp_len]. pf (mul_le_l LB (nlimbs p) (zlen s0)). lia. }
  assert (PA : 256 ^ mp_len p <= 256 ^ mp_len (NE s0)) by (apply Z.pow_le_mono_r; lia).
  apply wp_bind, wp_copy_from; [auto|auto|lia|]. intros f Of Sf Ef.
  apply wp_bind, wp_shrink_to; [auto|lia|lia|]. intros m Om Km Lm Em.
  assert (SE : forall g n, same_shape (NE s0) g -> shrunk_len g n = shrunk_len (NE s0) n).
  { intros g n [K L]. unfold shrunk_len. rewrite L. destruct g; try discriminate K. auto. }
  rewrite SE in Lm by auto. pose proof (scratch_view s0 p m Hp L0 Lm) as LM. pose proof (align_rng (mp_len p) Lp) as AR.
  assert (NN : forall b, mp_len b = ct_mp_limbs_align_len (mp_len p) -> nlimbs b = nlimbs p).
  { intros b E. unfold nlimbs at 1. rewrite E. apply ct_mp_nlimbs_unique; [lia|]. unfold ct_mp_limbs_align_len. fold (nlimbs p). lia. }
  pose proof (NN m LM) as Nm.
  apply wp_bind, wp_load; [auto|lia|]. rewrite limb_vlimb, Em, Ef.
  assert (OL : Z.odd (vlimb (mpval p) 0) = true) by (rewrite vlimb0_odd; auto). rewrite lxor_odd by auto.
  pose proof (limb_lim m 0 Om ltac:(lia)) as LL. rewrite limb_vlimb, Em, Ef in LL.
  assert (V0 : vlimb (mpval p) 0 <> 0) by (intros X; rewrite X in OL; discriminate).
  apply wp_bind, wp_store; [auto|lia|lia|]. intros m1 (Om1 & Sm1 & Em1). rewrite limb_vlimb, Em, Ef, Z.pow_0_r in Em1.
  assert (EM : mpval m1 = mpval p - 1) by lia. clear Em1.
  apply wp_bind, wp_find_first_set_bit; [auto|lia|]. intros s _ HS. rewrite EM in HS.
  rewrite lc_unwrap_chc. apply wp_bind, wp_dassert; [reflexivity|].
  pose proof HS as (S0 & SM & SO).
  assert (SP : 0 < s).
  { destruct (Z.eq_dec s 0) as [->|]; [|lia]. exfalso. change (2 ^ 0) with 1 in SO. rewrite Z.div_1_r, Zmod_odd, Z.odd_sub, HO in SO. discriminate. }
  apply wp_bind, wp_dassert; [lia|].
  destruct (unshrink_spec f m1) as (Ou & Su & _); auto.
  { destruct Sm1 as [-> _]. auto. } { rewrite (shape_len _ _ Sm1), (shape_len _ _ Sf), LM. rewrite Lm in LM. unfold shrunk_len in LM. cbn [supports_unaligned] in LM.
    pose proof (mp_len_nonneg (NE s0)). rewrite Z.min_l in LM by lia. clear LM. cbn [mp_len]. unfold ct_mp_limbs_align_len. fold (nlimbs p). pf (mul_le_l LB (nlimbs p) (zlen s0)). lia. }
  pose proof (shape_trans _ _ _ Sf Su) as Su'.
  apply wp_bind, wp_copy_from; [auto|auto|rewrite (shape_len _ _ Su'); lia|]. intros g Og Sg Eg. pose proof (shape_trans _ _ _ Su' Sg) as Sg'.
  apply wp_bind, wp_shrink_to; [auto|lia|lia|]. intros bp Obp Kbp Lbp Ebp. rewrite SE in Lbp by auto. pose proof (scratch_view s0 p bp Hp L0 Lbp) as LB0.
  assert (KB : kind_of bp = KNE) by (rewrite Kbp; destruct Sg' as [-> _]; reflexivity).
  apply wp_view with (r := NE s1) (K := fun _ ps => _); auto. intros fs ps Ofs Sfs Ops Lps Kps Nps Vps _. pose proof (scratch_view s1 p ps Hp L1 Lps) as LP1.
  apply wp_bind, wp_neg_inv; [auto|auto|]. intros ng HN.
  assert (CV : forall b, mp_ok b -> kind_of b = KNE -> mp_len b = ct_mp_limbs_align_len (mp_len p) -> mpval b < mpval p -> len_compat b (mp_len p)).
  { intros b Hbb Kb LLb Vb. right. split; [auto|]. split; lia. }
  assert (CP : forall l, l = ct_mp_limbs_align_len (mp_len p) -> len_compat p l) by (intros l ->; left; lia).
  assert (RB : mg_room bp p). { apply (room_view (NE s0) bp p); auto. }
  assert (RP : mg_room ps p). { apply (room_view (NE s1) ps p); auto. }
  set (P := mpval p) in *. set (len := 8 * mp_len p).
  assert (PL : P < 2 ^ len) by (unfold len; rewrite <- pow256 by lia; lia).
  assert (LP0 : 0 < mp_len p) by (destruct (Z.eq_dec (mp_len p) 0) as [E|E]; [rewrite E in BP; cbn in BP|]; lia).
  assert (SL : s < len) by (apply (is_ffs_bound (P - 1)); [lia|auto]).
  assert (UL : isu len). { destruct Hp as [_ HU]. unfold isu, len. lia. }
  assert (EF1 : mpval radix = mg_radix p mod mpval p) by (rewrite (inform_unique _ _ _ F1), Z.mul_1_l; auto). fold P in EF1.
  pose proof (inform_neg_one p (mpval radix) HO ltac:(fold P; lia) F1) as FN. fold P in FN.
  fold len in HQ. set (FI := mg_exp_fine p a ((P - 1) / 2) (len - 1)) in *.
  assert (FJ : FI -> forall j, 1 <= j < len -> mg_fine p (mg_form p (a ^ (P / 2 ^ (j + 1)))) (mg_form p (a ^ (P / 2 ^ (j + 1)))) /\
    (Z.testbit P j = true -> mg_fine p (mg_form p (a ^ (P / 2 ^ (j + 1)) * a ^ (P / 2 ^ (j + 1)))) (mg_form p a))).
  { intros X j Hj. specialize (X (j - 1)). lapply X; [clear X; intros X|lia].
    assert (PH : (P - 1) / 2 = P / 2). { pose proof (Zmod_odd P) as D. rewrite HO in D. pose proof (Z.div_mod P 2 ltac:(clear; lia)) as DM. symmetry. apply (Z.div_unique_pos (P - 1) 2 (P / 2) 0); lia. }
    rewrite PH in X. replace (j - 1 + 1) with j in X by ring.
    assert (PD : P / 2 / 2 ^ j = P / 2 ^ (j + 1)). { pf (pow2_gt0 j). rewrite Z.div_div, Z.pow_add_r by lia. f_equal. rewrite Z.pow_1_r. ring. }
    rewrite PD in X. assert (TB : Z.testbit (P / 2) (j - 1) = Z.testbit P j). { rewrite <- (Z.div2_div P), Z.div2_spec, Z.shiftr_spec by lia. f_equal. ring. }
    rewrite TB in X. assert (Hq : 0 <= P / 2 ^ (j + 1)) by (apply Z.div_pos; [lia|apply pow2_gt0; lia]).
    replace (2 * (P / 2 ^ (j + 1))) with (P / 2 ^ (j + 1) + P / 2 ^ (j + 1)) in X by lia. rewrite (Z.pow_add_r a) in X by lia. exact X. }
  clearbody FI.
  assert (Fa' : pform FI p a (mpval base)) by (split; auto).
  apply wp_bind. apply wp_for_down with (I := fun j '(x, y, t) => mp_ok x /\ same_shape bp x /\ mp_ok y /\ same_shape ps y /\
    pform FI p (a ^ (P / 2 ^ j)) (mpval x) /\ exists t', t = b2z t' /\ (FI -> (t' = true <-> exists k, j <= k < len /\ mr_cond P a s k)) /\
    t' || mr_outcome p ng (mpval base) s (mpval x) (Z.to_nat (j - 1)) = mr_outcome p ng (mpval base) s (mpval radix) (Z.to_nat (len - 1))); [unfold len; lia| | |].
  - split; [auto|]. split; [apply shape_refl|]. split; [auto|]. split; [apply shape_refl|]. rewrite Z.div_small by lia. rewrite Z.pow_0_r, Ebp, Eg. split; [split; auto|].
    exists false. split; [auto|]. split; [|reflexivity]. intros _. split; [discriminate|]. intros (k & Hk & _). lia.
  - intros j ((x, y), t) Hj (Ox & Sx & Oy & Sy & Fx & t' & -> & Ht & EO). pose proof Fx as [Vx _]. unfold mr_step.
    assert (Kx : kind_of x = KNE) by (destruct Sx as [-> _]; auto). assert (Lx : mp_len x = ct_mp_limbs_align_len (mp_len p)) by (rewrite (shape_len _ _ Sx); auto).
    assert (Ly : mp_len y = ct_mp_limbs_align_len (mp_len p)) by (rewrite (shape_len _ _ Sy); auto).
    apply wp_bind. eapply wp_mul_pform with (P := FI) (P' := FI); [exact Oy|exact Ox|exact Ox|auto|auto|exact HN|auto|apply CV; auto; lia|apply CV; auto; lia|exact Fx|exact Fx|lia|apply (shape_room ps); auto|intros X; split; [auto|apply (FJ X j); lia]|].
    intros y1 vy (Oy1 & Sy1 & Ey1) Fy1 EVy. rewrite <- Ey1 in Fy1, EVy. clear vy Ey1. cbn [unwrap]. apply wp_bind, wp_ret. pose proof Fy1 as [Vy _].
    pose proof (shape_trans _ _ _ Sy Sy1) as Sy'. assert (Ly1 : mp_len y1 = ct_mp_limbs_align_len (mp_len p)) by (rewrite (shape_len _ _ Sy'); auto).
    assert (Ky1 : kind_of y1 = KNE) by (destruct Sy' as [-> _]; rewrite Kps; auto).
    apply wp_bind. eapply wp_mul_pform with (P := FI) (P' := FI /\ Z.testbit P j = true); [exact Ox|exact Oy1|exact Hb|auto|auto|exact HN|auto|apply CV; auto; lia|auto|exact Fy1|exact Fa'|auto|apply (shape_room bp); auto|intros [X1 X2]; split; [auto|apply (FJ X1 j); [lia|auto]]|].
    intros x1 vx (Ox1 & Sx1 & Ex1) Fx1 EVx. rewrite <- Ex1 in Fx1, EVx. clear vx Ex1. cbn [unwrap]. apply wp_bind, wp_ret. pose proof Fx1 as [Vx1 _].
    pose proof (shape_trans _ _ _ Sx Sx1) as Sx'. assert (Lx1 : mp_len x1 = ct_mp_limbs_align_len (mp_len p)) by (rewrite (shape_len _ _ Sx'); auto).
    apply wp_bind, wp_test_bit; [auto|lia|]. fold P. rewrite lc_not_chc.
    apply wp_bind, wp_copy_from_cond; [auto|auto|rewrite Lx1, <- Ly1; apply mpval_bound; auto|right; lia|].
    intros x2 Ox2 Sx2 Ex2. pose proof (shape_trans _ _ _ Sx' Sx2) as Sx2'. assert (Lx2 : mp_len x2 = ct_mp_limbs_align_len (mp_len p)) by (rewrite (shape_len _ _ Sx2'); auto).
    assert (Fx2 : pform FI p (a ^ (P / 2 ^ j)) (mpval x2)).
    { rewrite Ex2, (div_bit P j) by lia. set (q := P / 2 ^ (j + 1)) in *. assert (Hq : 0 <= q) by (apply Z.div_pos; [lia|apply pow2_gt0; lia]).
      destruct (Z.testbit P j); cbn [negb b2z].
      - rewrite Z.pow_add_r, Z.pow_1_r by lia. replace (2 * q) with (q + q) by lia. rewrite Z.pow_add_r by lia. destruct Fx1 as [X1 X2]. split; auto.
      - rewrite Z.add_0_r. replace (2 * q) with (q + q) by lia. rewrite Z.pow_add_r by lia. auto. }
    pose proof Fx2 as [Vx2 _]. fold P in Vx2.
    apply wp_bind, wp_mr_compare; [auto|auto|auto|rewrite (NN x2); auto; lia|lia|fold P; lia|fold P; lia|].
    assert (UJ : isu j) by (unfold isu in *; lia). assert (US : isu s) by (unfold isu in *; lia).
    apply wp_bind, wp_eq_usize; [auto|auto|]. apply wp_bind, wp_lt_usize; [auto|auto|]. apply wp_ret.
    assert (I0 : isl 0) by (unfold isl; pose proof B_pos; lia). assert (IB : forall b, isl (b2z b)) by (intros b; pose proof (b2z_range b); unfold isl; pose proof B_gt; lia).
    rewrite lor_b2z, !lc_select_chc by auto.
    split; [auto|]. split; [auto|]. split; [auto|]. split; [auto|]. split; [auto|].
    exists (t' || ((j =? s) && ((mpval x2 =? mpval radix) || (mpval x2 =? P - mpval radix))) || ((j <? s) && (mpval x2 =? P - mpval radix))).
    split. { rewrite <- !lor_b2z. fold P. destruct (j =? s), (j <? s); cbn [andb b2z]; rewrite ?Z.lor_0_r, ?lor_b2z; auto. }
    split.
    2:{ rewrite <- EO. replace (Z.to_nat (j + 1 - 1)) with (S (Z.to_nat (j - 1))) by lia. cbn [mr_outcome]. cbv zeta. replace (Z.of_nat (S (Z.to_nat (j - 1)))) with j by lia.
        unfold mg_power_step. cbv zeta. rewrite <- EVy, <- EVx. fold P. rewrite <- EF1.
        replace (if Z.testbit P j then mpval x1 else mpval y1) with (mpval x2) by (rewrite Ex2; destruct (Z.testbit P j); reflexivity).
        rewrite <- !orb_assoc. f_equal. rewrite orb_assoc. f_equal. destruct (Z.eqb_spec j s) as [->|NE]; cbn [andb]; [rewrite Z.ltb_irrefl; cbn [andb]; apply orb_false_r|].
        destruct (j <? s); reflexivity. }
    intros HFI. destruct Fx2 as [_ Fx3]. specialize (Fx3 HFI). specialize (Ht HFI). clear FJ.
    assert (E1 : mpval x2 = mpval radix <-> a ^ (P / 2 ^ j) mod P = 1).
    { rewrite (inform_eq p _ 1 _ _ HO ltac:(fold P; lia) Fx3 F1). fold P. rewrite (Z.mod_small 1) by lia. tauto. }
    assert (E2 : mpval x2 = P - mpval radix <-> a ^ (P / 2 ^ j) mod P = P - 1).
    { rewrite (inform_eq p _ (-1) _ _ HO ltac:(fold P; lia) Fx3 FN). fold P. replace (-1) with (P - 1 + (-1) * P) by ring. rewrite Z.mod_add, (Z.mod_small (P - 1)) by lia. tauto. }
    rewrite !orb_true_iff, !andb_true_iff, !orb_true_iff, !Z.eqb_eq, Z.ltb_lt, E1, E2, Ht. unfold mr_cond. clear - Hj. split.
    + intros [[(k & Hk & C)|C]|C]; [exists k; split; [lia|auto]|exists j; split; [lia|auto]|exists j; split; [lia|auto]].
    + intros (k & Hk & C). destruct (Z.eq_dec k j) as [->|]; [tauto|]. left. left. exists k. split; [lia|auto].
  - intros ((x, y), t) (_ & _ & _ & _ & _ & t' & -> & Ht & EO). change (Z.to_nat (1 - 1)) with O in EO. cbn [mr_outcome] in EO. rewrite orb_false_r in EO. apply wp_bind, (wp_lc_new t'); [auto|]. apply wp_ret, HQ.
    2:{ intros g' s' d HG' HS' ED OD. rewrite EO. rewrite (neg_inv_unique p g' ng) by auto. rewrite <- EF1. f_equal. apply (is_ffs_eq (P - 1) s s' d); auto. }
    intros HFI. rewrite (Ht HFI).
    apply mr_cond_strong; auto.
Qed.

End Facts.

Lemma mr_any : forall (c : cfg) base p radix s0 s1 a, mp_ok base -> mp_ok p -> mp_ok radix -> mp_ok (NE s0) -> mp_ok (NE s1) ->
  Z.odd (mpval p) = true -> 2 < mpval p -> len_compat base (mp_len p) -> 0 < mp_len base -> len_compat radix (mp_len p) -> nlimbs radix = nlimbs p ->
  nlimbs p <= zlen s0 -> nlimbs p <= zlen s1 -> mpval base = (a * mg_radix p) mod mpval p -> mpval radix = mg_radix p mod mpval p ->
  mg_room (NE s0) p -> mg_room (NE s1) p ->
  exists b, returns (ct_prime_test_miller_rabin_mp base p radix s0 s1) (Ok (chc b)) /\
  (mg_exp_fine p a ((mpval p - 1) / 2) (8 * mp_len p - 1) -> (b = true <-> strong_probable_prime (mpval p) a)).
Proof.
  intros c base p radix s0 s1 a Hb Hp Hr H0 H1 HO P2 Cb Lb Cr Nr L0 L1 Ea E1 R0 R1.
  assert (Fa : inform p a (mpval base)) by (rewrite Ea; apply inform_intro; lia).
  assert (F1 : inform p 1 (mpval radix)) by (rewrite E1; rewrite <- (Z.mul_1_l (mg_radix p)) at 1; apply inform_intro; lia).
  assert (Y : yields (ct_prime_test_miller_rabin_mp base p radix s0 s1) (fun r => exists b, r = Ok (chc b) /\
    (mg_exp_fine p a ((mpval p - 1) / 2) (8 * mp_len p - 1) -> (b = true <-> strong_probable_prime (mpval p) a)))).
  { apply wp_yields. apply wp_miller_pform with (a := a); auto. intros b H _. exists b. auto. }
  destruct Y as (r & R & b & -> & H). exists b. auto.
Qed.

Lemma mr_value : forall (c : cfg) base p radix s0 s1 g s d, mp_ok base -> mp_ok p -> mp_ok radix -> mp_ok (NE s0) -> mp_ok (NE s1) ->
  Z.odd (mpval p) = true -> 2 < mpval p -> mpval base < mpval p -> len_compat base (mp_len p) -> 0 < mp_len base -> len_compat radix (mp_len p) -> nlimbs radix = nlimbs p ->
  nlimbs p <= zlen s0 -> nlimbs p <= zlen s1 -> mpval radix = mg_radix p mod mpval p ->
  mg_room (NE s0) p -> mg_room (NE s1) p -> neg_inv p g -> 0 <= s -> mpval p - 1 = 2 ^ s * d -> Z.odd d = true ->
  returns (ct_prime_test_miller_rabin_mp base p radix s0 s1)
    (Ok (chc (mr_outcome p g (mpval base) s (mg_radix p mod mpval p) (Z.to_nat (8 * mp_len p - 1))))).
Proof.
  intros c base p radix s0 s1 g s d Hb Hp Hr H0 H1 HO P2 Vb Cb Lb Cr Nr L0 L1 E1 R0 R1 HG Hs ES OD.
  pose proof (mpval_nonneg base Hb) as B0. destruct (form_onto c p (mpval base) HO) as [a Ea]; [lia|].
  assert (Fa : inform p a (mpval base)) by (rewrite Ea; apply inform_intro; lia).
  assert (F1 : inform p 1 (mpval radix)) by (rewrite E1; rewrite <- (Z.mul_1_l (mg_radix p)) at 1; apply inform_intro; lia).
  assert (Y : yields (ct_prime_test_miller_rabin_mp base p radix s0 s1) (fun r =>
    r = Ok (chc (mr_outcome p g (mpval base) s (mg_radix p mod mpval p) (Z.to_nat (8 * mp_len p - 1)))))).
  { apply wp_yields. apply wp_miller_pform with (a := a); auto. intros b _ H. rewrite (H g s d); auto. }
  destruct Y as (r & R & ->). auto.
Qed.

Lemma mr_prime_any : forall (c : cfg) base p radix s0 s1 a, mp_ok base -> mp_ok p -> mp_ok radix -> mp_ok (NE s0) -> mp_ok (NE s1) ->
  prime (mpval p) -> 2 < mpval p -> ~ (mpval p | a) -> len_compat base (mp_len p) -> 0 < mp_len base -> len_compat radix (mp_len p) -> nlimbs radix = nlimbs p ->
  nlimbs p <= zlen s0 -> nlimbs p <= zlen s1 -> mpval base = (a * mg_radix p) mod mpval p -> mpval radix = mg_radix p mod mpval p ->
  mg_exp_fine p a ((mpval p - 1) / 2) (8 * mp_len p - 1) -> mg_room (NE s0) p -> mg_room (NE s1) p ->
  returns (ct_prime_test_miller_rabin_mp base p radix s0 s1) (Ok (chc true)).
Proof.
  intros c base p radix s0 s1 a Hb Hp Hr H0 H1 HP P2 Ha Cb Lb Cr Nr L0 L1 Ea E1 HC R0 R1.
  assert (HO : Z.odd (mpval p) = true).
  { destruct (Z.odd (mpval p)) eqn:O; auto. exfalso. rewrite <- Z.negb_even in O. apply negb_false_iff, Z.even_spec in O. destruct O as [k O].
    destruct (prime_divisors _ HP 2) as [D|[D|[D|D]]]; try lia. exists k. lia. }
  destruct (mr_any c base p radix s0 s1 a) as (b & R & HB); auto. rewrite (proj2 (HB HC)) in R; auto. apply prime_strong; auto.
Qed.

(** A check that no product of an exponentiation has its second operand that close to the radix that a carry might get lost. *)
Fixpoint fine_chk {c : cfg} (N R b e r : Z) (k : nat) : bool :=
  match k with
  | O => true
  | S j => (B * ((r * R) mod N) + N <=? B * R) &&
    (if Z.testbit e (Z.of_nat j) then (B * ((b * R) mod N) + N <=? B * R) && fine_chk N R b e (((r * r) mod N * b) mod N) j
     else fine_chk N R b e ((r * r) mod N) j)
  end.

Lemma fine_chk_sound : forall (c : cfg) n b e k r, 0 < mpval n -> 0 <= e -> r = b ^ (e / 2 ^ Z.of_nat k) mod mpval n ->
  fine_chk (mpval n) (mg_radix n) b e r k = true -> mg_exp_fine n b e (Z.of_nat k).
Proof.
  intros c n b e k. set (N := mpval n). set (R := mg_radix n). induction k as [|k IH]; intros r HN He Er H j Hj; [lia|].
  cbn [fine_chk] in H. apply andb_prop in H. destruct H as [H1 H2]. apply Z.leb_le in H1.
  assert (EF : (r * R) mod N = mg_form n (b ^ (e / 2 ^ (Z.of_nat k + 1)))).
  { unfold mg_form. fold N R. rewrite Er, Zmult_mod_idemp_l. do 4 f_equal. lia. }
  rewrite EF in H1. set (q := e / 2 ^ (Z.of_nat k + 1)) in *.
  assert (Hq : 0 <= q) by (apply Z.div_pos; [lia|apply Z.pow_pos_nonneg; lia]).
  assert (ER : (r * r) mod N = b ^ (2 * q) mod N).
  { rewrite Er, Nat2Z.inj_succ, <- Z.add_1_r. fold q. rewrite <- Zmult_mod. f_equal. replace (2 * q) with (q + q) by lia. rewrite Z.pow_add_r by lia. auto. }
  assert (EQ : e / 2 ^ Z.of_nat k = 2 * q + Z.b2z (Z.testbit e (Z.of_nat k))).
  { unfold q. rewrite Z.testbit_spec' by lia. rewrite Z.pow_add_r, Z.pow_1_r, <- Z.div_div by (try lia; apply Z.pow_nonzero; lia). apply Z.div_mod. lia. }
  assert (FN : forall v, 0 <= mg_form n v). { intros v. apply Z.mod_pos_bound. auto. }
  assert (G : (Z.testbit e (Z.of_nat k) = true -> B * mg_form n b + N <= B * R) /\ mg_exp_fine n b e (Z.of_nat k)).
  { destruct (Z.testbit e (Z.of_nat k)).
    - apply andb_prop in H2. destruct H2 as [H2 H3]. apply Z.leb_le in H2. split; [auto|]. eapply IH; [auto|auto| |exact H3].
      rewrite EQ, ER, Zmult_mod_idemp_l. cbn [Z.b2z]. rewrite Z.pow_add_r, Z.pow_1_r by lia. auto.
    - split; [discriminate|]. eapply IH; [auto|auto| |exact H2]. rewrite EQ, ER. cbn [Z.b2z]. rewrite Z.add_0_r. auto. }
  destruct G as [G1 G2]. destruct (Z.eq_dec j (Z.of_nat k)) as [-> |NE]; [|apply G2; lia].
  fold q. split; [|intros T]; apply carry_ok_fine; auto.
Qed.
