(** Facts about euclid_impl.rs (ModelEuclid.v): the greatest common divisor. *)
From Coq Require Import ZArith List Bool Lia Znumtheory.
Require Import Verif.Spec Verif.Base Verif.Monad Verif.Wp Verif.ModelLimb Verif.LimbFacts Verif.LimbFacts2
  Verif.ModelBuf Verif.SpecBuf Verif.BufFacts Verif.BufFacts2 Verif.BufFacts3 Verif.UpFacts Verif.ModelCmp Verif.CmpFacts Verif.ModelShift Verif.ShiftFacts
  Verif.SpecMont Verif.SpecEuclid Verif.MontFacts5 Verif.ModelEuclid Verif.GcdBound Verif.EuclidFacts Verif.EuclidFacts2 Verif.EuclidFacts3.
Import ListNotations.
Open Scope Z_scope.

Section Facts.
Context {c : cfg}.

Lemma compat_shape : forall a a' len, same_shape a a' -> len_compat a len -> mpval a' < 256 ^ len -> len_compat a' len.
Proof.
  intros a a' len S H HV. pose proof (shape_len a a' S) as L. destruct S as [K _]. unfold len_compat in *. rewrite L. destruct H as [H|(H1 & H2 & H3)]; [auto|right].
  rewrite K. auto.
Qed.
Lemma mut_nlimbs : forall a b, mp_ok a -> mp_ok b -> mut_compat a b -> nlimbs b = nlimbs a /\ mpval a < 256 ^ mp_len b /\ mpval b < 256 ^ mp_len a.
Proof.
  intros a b Ha Hb [C0 C1]. pose proof (mp_len_nonneg a). pose proof (mp_len_nonneg b).
  destruct (compat_nlimbs a (mp_len b) Ha) as [N0 V0]; auto. destruct (compat_nlimbs b (mp_len a) Hb) as [N1 V1]; auto.
  fold (nlimbs a) in N1. fold (nlimbs b) in N0. split; [lia|auto].
Qed.
Lemma wp_mut_compat : forall a b (Q : bool -> Prop), mp_ok a -> mp_ok b -> mut_compat a b -> Q false ->
  wp (let! c0 := len_is_compatible_with a (mp_len b) in
      mif negb c0 then ret true else let! c1 := len_is_compatible_with b (mp_len a) in ret (negb c1)) Q.
Proof.
  intros a b Q Ha Hb [C0 C1] HQ. pose proof (mp_len_nonneg a). pose proof (mp_len_nonneg b).
  apply wp_bind, wp_compat; auto. apply wp_mif; intros E; [discriminate|]. apply wp_bind, wp_compat; auto.
Qed.
Lemma wp_mut_compat_not : forall a b (Q : bool -> Prop), mp_ok a -> mp_ok b -> ~ mut_compat a b -> Q true ->
  wp (let! c0 := len_is_compatible_with a (mp_len b) in
      mif negb c0 then ret true else let! c1 := len_is_compatible_with b (mp_len a) in ret (negb c1)) Q.
Proof.
  intros a b Q Ha Hb HN HQ. pose proof (mp_len_nonneg a). pose proof (mp_len_nonneg b).
  apply wp_bind. apply wp_len_compat; auto. intros r H1 H2 H3. destruct r; cbn [negb].
  - apply wp_bind, wp_tick. apply wp_bind. apply wp_compat_not; auto.
    intros C1. apply HN. split; auto. destruct (H1 eq_refl) as (HV & HL & HU). destruct (supports_unaligned a) eqn:U; [left; auto|right]. apply unal_KNE in U. auto.
  - apply wp_bind, wp_tick. apply wp_ret. auto.
Qed.
Lemma wp_bind_assoc : forall A C D (m : M A) (f : A -> M C) (g : C -> M D) Q, wp (bind (bind m f) g) Q -> wp (bind m (fun a => bind (f a) g)) Q.
Proof. intros. apply wp_bind_inv in H. apply wp_bind_inv in H. apply wp_bind. eapply wp_mono; [exact H|]. intros a Ha. apply wp_bind. exact Ha. Qed.

Lemma odd_len : forall f, mp_ok f -> Z.odd (mpval f) = true -> 0 < nlimbs f.
Proof.
  intros f Hf HO. pose proof (nlimbs_nonneg f). pose proof (mpval_bound_B f Hf) as HB. destruct (Z.eq_dec (nlimbs f) 0) as [E|E]; [|lia].
  rewrite E in HB. change (B ^ 0) with 1 in HB. assert (E1 : mpval f = 0) by lia. rewrite E1 in HO. discriminate.
Qed.

Definition cneg (z : bool) (V P : Z) : Z := if z then P - V else V.

(** Conditional negation of a number. *)
Lemma wp_gcd_odd : forall f g (Q : _ -> Prop), mp_ok f -> mp_ok g -> Z.odd (mpval f) = true -> mut_compat f g -> gcd_len_ok (Z.max (mp_len f) (mp_len g)) ->
  (forall f' g', becomes f f' (Z.gcd (mpval f) (mpval g)) -> becomes g g' 0 -> Q (Ok tt, f', g')) ->
  wp (ct_gcd_odd_mp_mp f g) Q.
Proof.
  intros f g Q Of Og HO HC HL HQ. unfold ct_gcd_odd_mp_mp.
  pose proof (odd_len f Of HO) as Hn. destruct (mut_nlimbs f g Of Og HC) as (Ng & _ & _).
  apply wp_bind, wp_test_bit; [auto|lia|]. rewrite Z.bit0_odd, HO, lc_unwrap_chc. apply wp_mif; intros E; [discriminate|]. clear E.
  apply wp_bind_assoc. apply wp_bind, wp_mut_compat; auto. apply wp_bind, wp_tick.
  apply wp_bind. eapply wp_gcd_ext with (J := fun _ _ _ => True); auto.
  { intros a b s0 e h F G F1 G1 ext _ _ _ _. apply wp_ret. auto. }
  intros f1 g1 Ff [] O1 O2 S1 S2 EG E1 E2 _. set (z := Ff <? 0). pose proof isl_0. pose proof isl_1.
  rewrite lc_mask, lc_select_chc by auto. rewrite (shape_nlimbs f f1 S1). set (n := nlimbs f) in *. set (V := mpval f1) in *.
  pose proof (mpval_bound_B f1 O1) as BV. fold V in BV. rewrite (shape_nlimbs f f1 S1) in BV. fold n in BV. pose proof (shape_nlimbs f f1 S1) as N1. fold n in N1.
  pose proof B_gt as BG.
  apply wp_bind. apply wp_for with (I := fun k '(f2, carry) => exists L, upinv f1 V k L f2 /\ (carry = 0 \/ carry = 1) /\ L + B ^ k * carry = cneg z (V mod B ^ k) (B ^ k)).
  { lia. }
  { exists 0. split; [apply upinv_init; auto|]. rewrite vmod_0, Z.pow_0_r. destruct z; cbn; lia. }
  { intros k [f2 carry] Hk (L & U & Hc & EL). apply wp_bind. eapply wp_up_load_full; [exact U|lia|apply nlimbs_full; lia|].
    pose proof (vlimb_isl V k) as Iv. rewrite lxor_chc by auto. apply wp_bind, wp_add_l; [unfold isl in *; destruct z; lia|unfold isl; lia|]. intros k' r Hk' Ir Er.
    apply wp_bind. eapply wp_up_store_full; [exact U|lia|apply nlimbs_full; lia|auto|]. intros f3 U3. apply wp_ret. exists (L + r * B ^ k). split; [auto|]. split; [auto|].
    rewrite vmod_S, Bpow_S by lia. transitivity (L + B ^ k * (r + B * k')); [ring|]. rewrite <- Er. rewrite Z.mul_add_distr_l, (Z.mul_comm _ carry), (Z.mul_comm carry).
    transitivity ((L + B ^ k * carry) + B ^ k * (if z then B - 1 - vlimb V k else vlimb V k)); [ring|]. rewrite EL. unfold cneg. destruct z; ring. }
  intros [f2 carry] (L & U & Hc & EL). apply wp_bind, wp_usub; [lia|]. apply wp_bind. eapply wp_up_load; [exact U|lia|lia|].
  pose proof (vlimb_isl V (n - 1)) as Iv. rewrite lxor_chc by auto. apply wp_bind, wp_add_l; [unfold isl in *; destruct z; lia|unfold isl; lia|]. intros k' r Hk' Ir Er.
  apply wp_bind, wp_partial_high_mask; [rewrite (upinv_nlimbs _ _ _ _ _ U); lia|].
  rewrite (upinv_nlimbs _ _ _ _ _ U), N1. assert (SU : same_shape f1 f2) by apply U. rewrite (lim_shape f1 f2) by auto. 
  assert (EH : Z.land r (lim f1 (n - 1) - 1) = r mod lim f1 (n - 1)). { rewrite <- N1. apply land_lim. lia. }
  rewrite EH. pose proof (lim_pos f1 (n - 1)) as LP.
  apply wp_bind. eapply wp_up_store; [exact U|lia|apply Z.mod_pos_bound; lia|]. intros f3 U3. replace (n - 1 + 1) with n in U3 by lia.
  assert (BE : becomes f1 f3 (L + r mod lim f1 (n - 1) * B ^ (n - 1))) by (apply (upinv_done f1 n); [auto|exact U3|lia]).
  destruct BE as (O3 & S3 & V3). apply wp_ret. apply HQ; [|split; auto].
  split; [auto|]. split; [eapply shape_trans; eauto|]. rewrite V3. clear V3 HQ.
  (* arithmetic *)
  pose proof (lim_total f1) as LT. rewrite N1, (shape_len f f1 S1) in LT. specialize (LT Hn). set (P := 256 ^ mp_len f) in *. set (l := lim f1 (n - 1)) in *.
  pose proof (Bpow_pos (n - 1)) as PB. set (R := B ^ (n - 1)) in *. pose proof (upinv_L _ _ _ _ _ U) as HLr. fold R in HLr.
  destruct (lim_last_pow2 f1 ltac:(rewrite N1; auto)) as (s & Hs & El). rewrite N1 in El. fold l in El. pose proof (B_split s) as BS. rewrite <- El in BS.
  assert (EV : V mod R + vlimb V (n - 1) * R = V). { unfold R. rewrite <- vmod_S by lia. replace (n - 1 + 1) with n by lia. apply Z.mod_small. auto. }
  assert (ET : L + R * (r + B * k') = cneg z V (B * R)).
  { rewrite <- Er. transitivity ((L + R * carry) + R * (if z then B - 1 - vlimb V (n - 1) else vlimb V (n - 1))); [ring|]. rewrite EL.
    transitivity (cneg z (V mod R + vlimb V (n - 1) * R) (B * R)); [unfold cneg; destruct z; ring|rewrite EV; auto]. }
  pose proof (mpval_bound f Of) as BF. fold P in BF.
  assert (GB : 0 < Z.gcd (mpval f) (mpval g) < P).
  { pose proof (Z.gcd_nonneg (mpval f) (mpval g)). assert (H2 : mpval f <> 0) by (intros E; rewrite E in HO; discriminate).
    assert (Z.gcd (mpval f) (mpval g) <> 0) by (intros E; apply Z.gcd_eq_0_l in E; auto).
    assert (FP : 0 < mpval f) by (clear - BF H2; lia). pose proof (Z.divide_pos_le (Z.gcd (mpval f) (mpval g)) (mpval f) FP (Z.gcd_divide_l (mpval f) (mpval g))). lia. }
  rewrite <- EG in *. set (GG := Z.abs Ff) in *.
  assert (EX : (L + R * (r mod l)) mod P = cneg z V (B * R) mod P).
  { rewrite <- ET. assert (DR : r + B * k' = r mod l + l * (r / l + 2 ^ (W - s) * k')).
    { rewrite (Z.div_mod r l) at 1 by lia. rewrite BS by lia. ring. }
    rewrite DR. replace (L + R * (r mod l + l * (r / l + 2 ^ (W - s) * k'))) with (L + R * (r mod l) + (r / l + 2 ^ (W - s) * k') * P) by (rewrite <- LT; ring).
    symmetry. apply Z.mod_add. lia. }
  assert (SM : 0 <= L + R * (r mod l) < P).
  { pose proof (Z.mod_pos_bound r l). pf (mul_le_l R (r mod l) (l - 1)). pf (mul_nn R (r mod l)). rewrite <- LT. lia. }
  rewrite Z.mod_small in EX by auto. rewrite (Z.mul_comm _ R), EX. unfold cneg. subst V. rewrite E1. unfold z. destruct (Z.ltb_spec Ff 0).
  - assert (EBR : B * R = (2 ^ (W - s)) * P) by (rewrite <- LT, BS by lia; ring). rewrite EBR.
    rewrite Zminus_mod_idemp_r. replace (2 ^ (W - s) * P - Ff) with (- Ff + 2 ^ (W - s) * P) by ring. rewrite Z.mod_add by lia. rewrite Z.mod_small; unfold GG in *; lia.
  - rewrite Z.mod_mod by lia. rewrite Z.mod_small; unfold GG in *; lia.
Qed.

Lemma odd_errors : forall f g, mp_ok f -> mp_ok g ->
  (Z.odd (mpval f) = false -> wp (ct_gcd_odd_mp_mp f g) (fun r => r = (Err GcdInvalidInputOperandValue, f, g))) /\
  (Z.odd (mpval f) = true -> ~ mut_compat f g -> wp (ct_gcd_odd_mp_mp f g) (fun r => r = (Err GcdInconsistentOperandLengths, f, g))).
Proof.
  intros f g Of Og. split.
  - intros HO. unfold ct_gcd_odd_mp_mp. apply wp_bind, wp_test_bit; [auto|lia|]. rewrite Z.bit0_odd, HO, lc_unwrap_chc. apply wp_mif; intros E; [|discriminate]. apply wp_ret. auto.
  - intros HO HC. unfold ct_gcd_odd_mp_mp. apply wp_bind, wp_test_bit; [auto|lia|]. rewrite Z.bit0_odd, HO, lc_unwrap_chc. apply wp_mif; intros E; [discriminate|].
    apply wp_bind_assoc. apply wp_bind, wp_mut_compat_not; auto. apply wp_bind, wp_tick. apply wp_ret. auto.
Qed.

(** Factoring out the powers of two. *)
Lemma ffs_eq : forall v r, is_ffs v r -> exists q, v = 2 ^ r * q /\ Z.odd q = true.
Proof.
  intros v r (H0 & H1 & H2). exists (v / 2 ^ r). pose proof (pow2_gt0 r). split.
  - pose proof (Z.div_mod v (2 ^ r)). lia.
  - rewrite Zmod_odd in H2. destruct (Z.odd (v / 2 ^ r)); [auto|discriminate].
Qed.

Definition gcd_or_one (x y : Z) : Z := if (x =? 0) && (y =? 0) then 1 else Z.gcd x y.

Lemma gcd_bounds : forall x y, 0 <= x -> 0 <= y -> forall P, x < P -> y < P -> x <> 0 \/ y <> 0 -> 0 < Z.gcd x y < P.
Proof.
  intros x y Hx Hy P Px Py H. pose proof (Z.gcd_nonneg x y). assert (Z.gcd x y <> 0). { intros E. pose proof (Z.gcd_eq_0_l _ _ E). pose proof (Z.gcd_eq_0_r _ _ E). lia. }
  destruct H as [H|H].
  - pose proof (Z.divide_pos_le (Z.gcd x y) x ltac:(lia) (Z.gcd_divide_l x y)). lia.
  - pose proof (Z.divide_pos_le (Z.gcd x y) y ltac:(lia) (Z.gcd_divide_r x y)). lia.
Qed.

Lemma wp_gcd_core : forall a b p (z zz : bool) x' y' (Q : result unit gcd_err * mp * mp -> Prop), mp_ok a -> mp_ok b -> mut_compat a b -> 0 < nlimbs a -> gcd_len_ok (Z.max (mp_len a) (mp_len b)) ->
  0 <= p < 2 ^ UW -> mpval a = 2 ^ p * x' -> mpval b = 2 ^ p * y' -> (zz = true -> mpval a = 0 /\ mpval b = 0 /\ p = 0) ->
  (zz = false -> Z.odd (if z then y' else x') = true) ->
  (forall a' b', becomes a a' (if zz then 1 else Z.gcd (mpval a) (mpval b)) -> becomes b b' 0 -> Q (Ok tt, a', b')) ->
  wp (let! '(op0, _) := ct_rshift_mp a p in
      let! '(op1, _) := ct_rshift_mp b p in
      let! '(op0, op1) := ct_swap_cond_mp op0 op1 (chc z) in
      dassert_m (mif negb (lc_unwrap (chc zz) =? 0) then ret true else let! v := load_l op0 0 in ret (Z.land v 1 =? 1)) ;;
      let! v := load_l op0 0 in
      let! op0 := store_l op0 0 (lc_select (chc zz) v 1) in
      let! '(r, op0, op1) := ct_gcd_odd_mp_mp op0 op1 in
      match r with
      | Err _ => panic
      | Ok _ =>
        dassert_m (let! z := ct_is_zero_mp op0 in ret (lc_unwrap z =? 0)) ;;
        dassert_m (mif (lc_unwrap (chc zz) =? 0) then ret true else
                   let! o := ct_is_one_mp op0 in ret (negb (lc_unwrap o =? 0))) ;;
        dassert ((lc_unwrap (chc zz) =? 0) || (p =? 0)) ;;
        let! '(op0, _) := ct_lshift_mp op0 p in
        ret (Ok tt, op0, op1)
      end) Q.
Proof.
  intros a b p z zz x' y' Q Ha Hb HC Hn HL Hp Ea Eb HZ HO HQ. destruct (mut_nlimbs a b Ha Hb HC) as (Nb & Vab & Vba).
  pose proof (mpval_bound a Ha) as Ba. pose proof (mpval_bound b Hb) as Bb. pose proof (pow2_gt0 p) as Pp. destruct HC as [C0 C1].
  assert (Dx : mpval a / 2 ^ p = x') by (rewrite Ea, Z.mul_comm; apply Z.div_mul; lia). assert (Dy : mpval b / 2 ^ p = y') by (rewrite Eb, Z.mul_comm; apply Z.div_mul; lia).
  assert (Px : 0 <= x') by (rewrite <- Dx; apply Z.div_pos; lia). assert (Py : 0 <= y') by (rewrite <- Dy; apply Z.div_pos; lia).
  assert (Lx : x' <= mpval a) by (pf (mul_le_l x' 1 (2 ^ p)); lia). assert (Ly : y' <= mpval b) by (pf (mul_le_l y' 1 (2 ^ p)); lia).
  apply wp_bind, wp_rshift; [auto|auto|]. intros a1 (Oa1 & Sa1 & Va1). apply wp_bind, wp_rshift; [auto|auto|]. intros b1 (Ob1 & Sb1 & Vb1). rewrite Dx in Va1. rewrite Dy in Vb1.
  apply wp_bind, wp_swap_cond; [auto|auto|rewrite (shape_nlimbs a a1), (shape_nlimbs b b1) by auto; auto| |].
  { intros _. rewrite Va1, Vb1, (shape_len a a1), (shape_len b b1) by auto. lia. }
  intros a2 b2 (Oa2 & Sa2 & Va2) (Ob2 & Sb2 & Vb2). rewrite Va1, Vb1 in *. rewrite lc_unwrap_chc.
  assert (Sa02 : same_shape a a2) by (eapply shape_trans; eauto). assert (Sb02 : same_shape b b2) by (eapply shape_trans; eauto).
  assert (Na2 : nlimbs a2 = nlimbs a) by (apply shape_nlimbs; auto).
  assert (V0 : forall X, vlimb X 0 = X mod B) by (intros; unfold vlimb; rewrite Z.pow_0_r, Z.div_1_r; auto).
  assert (OM : forall X, Z.odd (X mod B) = Z.odd X). { intros X. destruct (mod_shift X W) as [u ->]; [pose proof W_pos; lia|]. apply odd_shift. apply W_pos. }
  pose proof B_gt as BG.
  apply wp_bind, wp_dassert_m.
  { apply wp_mif; intros E; [apply wp_ret; auto|]. apply wp_bind, wp_load; [auto|lia|]. apply wp_ret. rewrite land1, limb_vlimb, V0, OM, Va2. destruct zz; [discriminate|]. rewrite HO by auto. auto. }
  apply wp_bind, wp_load; [auto|lia|]. rewrite lc_select_chc by (try apply limb_isl; unfold isl; lia).
  pose proof (limb_lim a2 0 Oa2) as LL. assert (L1 : 1 < lim a2 0). { unfold lim. pose proof (nlimbs_spec a2). pose proof LB_pos. assert (0 < mp_len a2). { destruct (Z.eq_dec (mp_len a2) 0) as [E|E]; [|pose proof (mp_len_nonneg a2); lia]. pose proof (nlimbs_lt a2 0). lia. }
    assert (256 ^ 1 <= 256 ^ Z.min LB (mp_len a2 - 0 * LB)) by (apply Z.pow_le_mono_r; lia). change (256 ^ 1) with 256 in *. lia. }
  set (X := if zz then 1 else if z then y' else x'). set (Y := if z then x' else y').
  apply wp_bind, wp_store; [auto|lia|destruct zz; lia|]. intros a3 (Oa3 & Sa3 & Va3).
  assert (VX : mpval a3 = X).
  { rewrite Va3, Z.pow_0_r, Z.mul_1_r. unfold X. destruct zz; [|rewrite Va2; lia].
    destruct (HZ eq_refl) as (Z1 & Z2 & Z3). assert (x' = 0 /\ y' = 0) by (subst p; change (2 ^ 0) with 1 in *; lia).
    assert (E0 : mpval a2 = 0) by (rewrite Va2; destruct z; lia). rewrite limb_vlimb, E0, V0, Z.mod_0_l by lia. lia. }
  assert (HB2 : mpval b2 = Y) by (rewrite Vb2; auto).
  assert (OX : Z.odd X = true) by (unfold X; destruct zz; auto).
  assert (S3 : same_shape a a3) by (eapply shape_trans; eauto).
  assert (B1 : 0 < mp_len b). { destruct (Z.eq_dec (mp_len b) 0) as [E|E]; [|pose proof (mp_len_nonneg b); lia]. pose proof (nlimbs_lt b 0). lia. }
  assert (B1' : 256 ^ 1 <= 256 ^ mp_len b) by (apply Z.pow_le_mono_r; lia). change (256 ^ 1) with 256 in B1'.
  apply wp_bind, wp_gcd_odd; [auto|auto|rewrite VX; auto| | |].
  { split.
    - rewrite (shape_len b b2) by auto. eapply compat_shape; [exact S3|auto|]. rewrite VX. unfold X. destruct zz; [lia|destruct z; lia].
    - rewrite (shape_len a a3) by auto. eapply compat_shape; [exact Sb02|auto|]. rewrite HB2. unfold Y. destruct z; lia. }
  { rewrite (shape_len b b2), (shape_len a a3) by auto. auto. }
  intros a4 b4 (Oa4 & Sa4 & Va4) (Ob4 & Sb4 & Vb4). rewrite VX, HB2 in Va4.
  assert (GX : Z.gcd X Y = if zz then 1 else Z.gcd x' y'). { unfold X, Y. destruct zz; [apply Z.gcd_1_l|]. destruct z; [apply Z.gcd_comm|auto]. }
  assert (GP : 0 < Z.gcd X Y). { rewrite GX. destruct zz; [lia|]. pose proof (gcd_bounds x' y' Px Py (x' + y' + 1)). assert (x' <> 0 \/ y' <> 0); [|lia]. specialize (HO eq_refl). destruct z; [right|left]; intros E; rewrite E in HO; discriminate. }
  apply wp_bind, wp_dassert_m. { apply wp_bind, wp_is_zero_mp; [auto|]. apply wp_ret. rewrite lc_unwrap_chc, Va4. destruct (Z.eqb_spec (Z.gcd X Y) 0); [lia|auto]. }
  apply wp_bind, wp_dassert_m. { apply wp_mif; intros E; [apply wp_ret; auto|]. apply wp_bind, wp_is_one_mp; [auto|]. apply wp_ret. rewrite lc_unwrap_chc, Va4, GX. destruct zz; [auto|discriminate]. }
  apply wp_bind, wp_dassert. { destruct zz; [|auto]. destruct (HZ eq_refl) as (_ & _ & ->). auto. }
  assert (S4 : same_shape a a4) by (eapply shape_trans; eauto).
  apply wp_bind, wp_lshift; [auto|auto|]. intros a5 (Oa5 & Sa5 & Va5). apply wp_ret. rewrite Va4, (shape_len a a4) in Va5 by auto.
  assert (EV : (Z.gcd X Y * 2 ^ p) mod 256 ^ mp_len a = if zz then 1 else Z.gcd (mpval a) (mpval b)).
  { rewrite GX. destruct zz.
    - destruct (HZ eq_refl) as (_ & _ & ->). change (2 ^ 0) with 1. apply Z.mod_small. assert (0 < mp_len a). { destruct (Z.eq_dec (mp_len a) 0) as [E|E]; [|pose proof (mp_len_nonneg a); lia]. pose proof (nlimbs_lt a 0). lia. }
      assert (256 ^ 1 <= 256 ^ mp_len a) by (apply Z.pow_le_mono_r; lia). change (256 ^ 1) with 256 in *. lia.
    - rewrite Ea, Eb, Z.gcd_mul_mono_l, (Z.abs_eq (2 ^ p)) by lia. rewrite (Z.mul_comm (Z.gcd _ _)).
      apply Z.mod_small. rewrite <- (Z.abs_eq (2 ^ p)), <- Z.gcd_mul_mono_l, <- Ea, <- Eb by lia.
      pose proof (gcd_bounds (mpval a) (mpval b) ltac:(apply Ba) ltac:(apply Bb) (256 ^ mp_len a)) as GB. assert (mpval a <> 0 \/ mpval b <> 0); [|lia].
      specialize (HO eq_refl). destruct z; [right|left]; intros E; [assert (y' = 0) by (apply (Z.mul_reg_l _ _ (2 ^ p)); lia)|assert (x' = 0) by (apply (Z.mul_reg_l _ _ (2 ^ p)); lia)]; [assert (HH : Z.odd y' = false) by (replace y' with 0 by lia; auto)|assert (HH : Z.odd x' = false) by (replace x' with 0 by lia; auto)]; congruence. }
  apply HQ; [split; [auto|split; [eapply shape_trans; eauto|congruence]]|].
  split; [auto|split; [|auto]]. eapply shape_trans; eauto.
Qed.

Lemma wp_gcd : forall a b (Q : _ -> Prop), mp_ok a -> mp_ok b -> 0 < mp_len a -> mut_compat a b -> gcd_len_ok (Z.max (mp_len a) (mp_len b)) ->
  (forall a' b', becomes a a' (gcd_or_one (mpval a) (mpval b)) -> becomes b b' 0 -> Q (Ok tt, a', b')) ->
  wp (ct_gcd_mp_mp a b) Q.
Proof.
  intros a b Q Ha Hb Hl HC HL HQ. unfold ct_gcd_mp_mp.
  assert (Hn : 0 < nlimbs a) by (apply nlimbs_lt; lia). pose proof (mpval_bound a Ha) as Ba. pose proof (mpval_bound b Hb) as Bb.
  apply wp_mif; intros E. { rewrite empty_nlimbs in E. apply Z.eqb_eq in E. lia. } clear E.
  apply wp_bind_assoc. apply wp_bind, wp_mut_compat; auto. apply wp_bind, wp_tick.
  assert (UB : forall m v r, mp_ok m -> v = mpval m -> is_ffs v r -> 0 <= r < 2 ^ UW).
  { intros m v r Hm -> Hr. pose proof (mpval_bound m Hm) as B1. rewrite pow256 in B1 by apply mp_len_nonneg. pose proof (is_ffs_bound _ _ _ B1 Hr). destruct Hr as [H0 _].
    destruct Hm as [_ Hm]. lia. }
  assert (U0 : 0 <= 0 < 2 ^ UW) by (pose proof UW_gt; lia).
  unfold gcd_or_one in HQ.
  apply wp_bind. apply wp_find_first_set_bit; auto.
  - (* a is zero *)
    intros Za. rewrite Za in HQ. change (0 =? 0) with true in HQ. cbn [andb] in HQ. apply wp_bind. apply wp_find_first_set_bit; auto.
    + intros Zb. rewrite Zb in HQ. change (0 =? 0) with true in HQ. cbn iota in HQ. apply wp_bind, wp_dassert; [rewrite lc_unwrap_chc; auto|]. apply wp_bind, wp_lt_usize; [auto|auto|].
      rewrite !lc_not_chc, !lc_and_chc, lc_or_chc, lc_select_usize_chc by auto. cbn [negb andb orb].
      apply (wp_gcd_core a b 0 true true 0 0); auto; rewrite ?Za, ?Zb; lia.
    + intros r1 Nb F1. destruct (ffs_eq _ _ F1) as (q & Eq & Oq). pose proof (UB b _ r1 Hb eq_refl F1) as U1. apply wp_bind, wp_dassert; [rewrite lc_unwrap_chc; auto|]. apply wp_bind, wp_lt_usize; [auto|auto|].
      rewrite !lc_not_chc, !lc_and_chc, lc_or_chc, lc_select_usize_chc by auto. cbn [negb andb orb].
      apply (wp_gcd_core a b r1 true false 0 q); auto; [lia|discriminate|].
      intros a' b' Ba' Bb'. apply HQ; [|auto]. destruct (Z.eqb_spec (mpval b) 0); [lia|]. rewrite Za in Ba'. auto.
  - intros r0 Na F0. destruct (ffs_eq _ _ F0) as (q0 & Eq0 & Oq0). pose proof (UB a _ r0 Ha eq_refl F0) as Ur0.
    destruct (Z.eqb_spec (mpval a) 0) as [E|_]; [lia|]. cbn [andb] in HQ. apply wp_bind. apply wp_find_first_set_bit; auto.
    + intros Zb. apply wp_bind, wp_dassert; [rewrite lc_unwrap_chc; auto|]. apply wp_bind, wp_lt_usize; [auto|auto|].
      rewrite !lc_not_chc, !lc_and_chc, lc_or_chc, lc_select_usize_chc by auto. cbn [negb andb orb].
      apply (wp_gcd_core a b r0 false false q0 0); auto; [lia|discriminate].
    + intros r1 Nb F1. destruct (ffs_eq _ _ F1) as (q & Eq & Oq). pose proof (UB b _ r1 Hb eq_refl F1) as U1. apply wp_bind, wp_dassert; [rewrite lc_unwrap_chc; auto|]. apply wp_bind, wp_lt_usize; [auto|auto|].
      rewrite !lc_not_chc, !lc_and_chc, lc_or_chc, lc_select_usize_chc by auto. cbn [negb andb orb].
      destruct (Z.ltb_spec r1 r0) as [L|L].
      * assert (ED : 2 ^ r0 = 2 ^ r1 * 2 ^ (r0 - r1)) by (rewrite <- Z.pow_add_r by lia; f_equal; lia).
        apply (wp_gcd_core a b r1 true false (2 ^ (r0 - r1) * q0) q); auto; [rewrite Eq0, ED; ring|discriminate].
      * assert (ED : 2 ^ r1 = 2 ^ r0 * 2 ^ (r1 - r0)) by (rewrite <- Z.pow_add_r by lia; f_equal; lia).
        apply (wp_gcd_core a b r0 false false q0 (2 ^ (r1 - r0) * q)); auto; [rewrite Eq, ED; ring|discriminate].
Qed.

Lemma gcd_errors : forall a b, mp_ok a -> mp_ok b ->
  (mp_len a = 0 -> wp (ct_gcd_mp_mp a b) (fun r => r = (Err GcdInsufficientResultSpace, a, b))) /\
  (0 < mp_len a -> ~ mut_compat a b -> wp (ct_gcd_mp_mp a b) (fun r => r = (Err GcdInconsistentOperandLengths, a, b))).
Proof.
  intros a b Ha Hb. assert (EL : mp_is_empty a = (mp_len a =? 0)).
  { rewrite empty_nlimbs. pose proof (nlimbs_lt a 0). pose proof (nlimbs_nonneg a). pose proof (mp_len_nonneg a). destruct (Z.eqb_spec (nlimbs a) 0), (Z.eqb_spec (mp_len a) 0); auto; lia. }
  split.
  - intros E0. unfold ct_gcd_mp_mp. rewrite EL, E0. apply wp_mif; intros E; [|discriminate]. apply wp_ret. auto.
  - intros HL HC. unfold ct_gcd_mp_mp. apply wp_mif; intros E. { rewrite EL in E. apply Z.eqb_eq in E. lia. }
    apply wp_bind_assoc. apply wp_bind, wp_mut_compat_not; auto. apply wp_bind, wp_tick. apply wp_ret. auto.
Qed.

End Facts.
