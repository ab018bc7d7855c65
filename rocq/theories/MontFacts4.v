(** Facts about montgomery_impl.rs (ModelMont.v): one round of ct_montgomery_mul_mod_mp_mp. *)
From Coq Require Import ZArith List Bool Lia.
Require Import Verif.Spec Verif.Base Verif.Monad Verif.Wp Verif.ModelLimb Verif.LimbFacts Verif.LimbFacts2
  Verif.ModelBuf Verif.SpecBuf Verif.BufFacts Verif.BufFacts2 Verif.BufFacts3 Verif.UpFacts Verif.ModelCmp Verif.CmpFacts
  Verif.ModelAdd Verif.AddFacts Verif.ModelMont Verif.MontFacts Verif.MontFacts2 Verif.MontFacts3.
Import ListNotations.
Open Scope Z_scope.

Section Facts.
Context {c : cfg}.

Lemma wp_mg_acc : forall t V0 p i L t1 b j sh (Q : Z -> Prop), upinv t V0 i L t1 -> nlimbs t = p + 1 -> 0 <= i <= j -> j <= p -> isl sh ->
  b = (j =? p) -> Q (vlimb (accT V0 p sh) j) -> wp (mg_acc t1 b j sh) Q.
Proof.
  intros t V0 p i L t1 b j sh Q HU Nt Hi Hj Hsh -> HQ. unfold mg_acc. apply wp_mif; intros E.
  - apply negb_true_iff, Z.eqb_neq in E. eapply wp_up_load_full; [exact HU|lia|apply full_inner; lia|]. rewrite <- (accT_lo V0 p sh) by lia. auto.
  - apply negb_false_iff, Z.eqb_eq in E. subst j. apply wp_ret. rewrite accT_hi in HQ by (auto; lia). auto.
Qed.

(** One round of the second outer loop. *)
Lemma wp_mg_redc_step : forall t n n0 g p sh cy (Q : mp * Z * Z -> Prop), mp_ok t -> mp_ok n -> nlimbs t = p + 1 -> nlimbs n = p + 1 -> 0 <= p ->
  n0 = vlimb (mpval n) 0 -> isl g -> lwmul n0 g = B - 1 -> isl sh -> (cy = 0 \/ cy = 1) ->
  (forall t' cy' sh' m, mp_ok t' -> same_shape t t' -> (cy' = 0 \/ cy' = 1) -> isl sh' -> 0 <= m < B ->
     B * acc t' p sh' cy' = acc t p sh cy + m * mpval n -> Q (t', cy', sh')) ->
  wp (mg_redc_step n n0 g (t, cy, sh)) Q.
Proof.
  intros t n n0 g p sh cy Q Ht Hn Nt Nn Hp En0 Hg Hi Hsh Hcy HQ.
  set (V0 := mpval t). set (N := mpval n) in *.
  assert (HN : 0 <= N < B ^ (p + 1)) by (rewrite <- Nn; apply mpval_bound_B; auto).
  unfold mg_redc_step. rewrite Nn. apply wp_bind. eapply wp_mg_acc with (t := t) (V0 := V0) (p := p) (i := 0); [apply upinv_init; auto|auto|lia|lia|auto| |].
  { destruct (Z.eqb_spec (p + 1) 1), (Z.eqb_spec 0 p); auto; lia. }
  set (T := accT V0 p sh).
  apply wp_bind, wp_kstart with (N := N); auto; [apply vlimb_isl|]. intros m k HK. pose proof (kinv_m _ _ _ _ _ _ HK) as Hm.
  assert (HK0 : kinv (T mod B ^ (0 + 1)) N m 0 0 k).
  { change (0 + 1) with 1. rewrite Z.pow_1_r. replace (vlimb T 0) with (T mod B) in HK; [auto|]. unfold vlimb. change (B ^ 0) with 1. rewrite Z.div_1_r. auto. }
  clear HK. apply wp_bind.
  apply wp_for with (I := fun j '(t', k) => exists L, upinv t V0 j L t' /\ kinv (T mod B ^ (j + 1)) N m j L k); [lia| | |].
  { exists 0. split; [apply upinv_init; auto|auto]. }
  { intros j (t1, k1) Hj (L & HU & HK). apply wp_bind, wp_usub; [lia|].
    apply wp_bind. eapply wp_mg_acc; [exact HU|exact Nt|lia|lia|auto| |].
    { replace (p + 1 - 1) with p by lia. reflexivity. } fold T.
    apply wp_bind, wp_load; [auto|lia|]. rewrite limb_vlimb. fold N.
    apply wp_bind. eapply wp_kupdate; [exact HK|lia|apply vlimb_isl|reflexivity|]. intros k' r Hr HK'.
    apply wp_bind. eapply wp_up_store_full; [exact HU|lia|apply full_inner; lia|auto|]. intros t2 HU2. apply wp_ret.
    eexists. split; [exact HU2|]. rewrite (vmod_S T (j + 1)) by lia. exact HK'. }
  intros (t1, k1) (L1 & HU1 & HK1). rewrite Z.max_r by lia. replace (p + 1 - 1) with p in * by lia.
  apply wp_bind, wp_dassert; [apply Z.eqb_refl|].
  assert (TF : T mod B ^ (p + 1) = T) by (apply Z.mod_small, accT_rng; auto; lia). rewrite TF in HK1.
  apply wp_bind. eapply wp_kfinish; [exact HK1|lia|destruct Hcy as [->| ->]; [apply isl_0|apply isl_1]|auto|].
  intros cy' sh' Hc' Hs' HE. apply wp_bind, wp_dassert; [apply Z.leb_le; lia|]. apply wp_ret. apply (HQ _ _ _ m); auto.
  - apply (upinv_ok _ _ _ _ _ HU1).
  - apply (upinv_shape _ _ _ _ _ HU1).
  - rewrite (acc_upinv _ _ _ _ _ _ _ HU1), HE, acc_accT. fold V0 T. ring.
Qed.

(** The state of the inner loops of the first outer loop: the kernel has seen the low limbs [Sl] of
    T + a * O, of which [q] is carried on. *)
Definition minv (t : mp) (V0 T a O N m j : Z) (s : mp * redc_kernel * Z) : Prop :=
  let '(t', k, q) := s in
  exists L Sl, upinv t V0 j L t' /\ kinv Sl N m j L k /\ isl q /\ 0 <= Sl < B ^ (j + 1) /\
    Sl + q * B ^ (j + 1) = T mod B ^ (j + 1) + a * (O mod B ^ (j + 1)).

Lemma minv_rng : forall Sl s j, 0 <= j -> isl s -> 0 <= Sl < B ^ (j + 1) -> 0 <= Sl + s * B ^ (j + 1) < B ^ (j + 1 + 1).
Proof.
  intros Sl s j Hj Hs HS. rewrite (Bpow_S (j + 1)) by lia. unfold isl in Hs. pf (mul_nn s (B ^ (j + 1))).
  pf (mul_le_l (B ^ (j + 1)) s (B - 1)). lia.
Qed.

Lemma minv_step : forall V T a O j q q' s0 (Sl : Z), 0 <= j ->
  Sl + q * B ^ (j + 1) = T mod B ^ (j + 1) + a * (O mod B ^ (j + 1)) ->
  s0 + B * q' = vlimb T (j + 1) + a * vlimb O (j + 1) + q ->
  V = Sl + s0 * B ^ (j + 1) -> V + q' * B ^ (j + 1 + 1) = T mod B ^ (j + 1 + 1) + a * (O mod B ^ (j + 1 + 1)).
Proof.
  intros V T a O j q q' s0 Sl Hj H1 H2 ->. rewrite (vmod_S T (j + 1)), (vmod_S O (j + 1)) by lia.
  rewrite (Bpow_S (j + 1)) by lia. set (P := B ^ (j + 1)) in *.
  replace (T mod P + vlimb T (j + 1) * P + a * (O mod P + vlimb O (j + 1) * P)) with
    (T mod P + a * (O mod P) + P * (vlimb T (j + 1) + a * vlimb O (j + 1) + q) - q * P) by ring.
  rewrite <- H2, <- H1. ring.
Qed.

(** An empty buffer of bytes has a first limb, 0, but for the debug assertion on little-endian ones. *)
Definition load0_ok (b : mp) : Prop := 1 <= nlimbs b \/ (mp_len b = 0 /\ debug c = false /\ kind_of b <> KNE).
Lemma wp_load_0 : forall b (Q : Z -> Prop), mp_ok b -> load0_ok b -> Q (vlimb (mpval b) 0) -> wp (load_l b 0) Q.
Proof.
  intros b Q Hb [HL|(HL & D & HK)] HQ; [apply wp_load; [auto|lia|]; rewrite limb_vlimb; auto|].
  pose proof LB_pos as LP. assert (ZZ : forall k, splice (zrepeat 0 LB) k [] = zrepeat 0 LB).
  { intros k. unfold splice. cbn [app length]. rewrite Nat.add_0_r. apply firstn_skipn. }
  assert (V0 : mpval b = 0). { pose proof (mpval_bound b Hb) as X. rewrite HL in X. change (256 ^ 0) with 1 in X. lia. }
  rewrite V0 in HQ. change (vlimb 0 0) with 0 in HQ.
  unfold load_l. apply wp_bind, wp_tick. destruct b as [l|l|l]; cbn [mp_len kind_of] in *; [| |contradiction HK; auto].
  - assert (l = []) by (destruct l; auto; rewrite zlen_cons in HL; pose proof (zlen_nonneg _ l); lia). subst l.
    unfold be_mp_load_l. apply wp_bind, wp_dassert; [reflexivity|]. apply wp_bind, wp_usub; [cbn; lia|].
    change (zlen (@nil Z) - 0 * LB) with 0. apply wp_mif; intros E; [apply Z.leb_le in E; lia|].
    unfold _be_mp_load_l_high_partial. apply wp_bind, wp_usub; [lia|]. apply wp_bind, wp_slice; [lia|cbn; lia|]. cbn [skipn firstn Z.to_nat Z.sub Z.opp Z.add Z.pos_sub].
    apply wp_ret. rewrite ZZ. unfold be_val, le_val. rewrite ?rev_zrepeat, zrepeat_val. auto.
  - assert (l = []) by (destruct l; auto; rewrite zlen_cons in HL; pose proof (zlen_nonneg _ l); lia). subst l.
    unfold le_mp_load_l. cbv zeta. apply wp_bind. unfold dassert. rewrite D. apply wp_ret.
    change (0 * LB) with 0. change (zlen (@nil Z)) with 0. apply wp_mif; intros E; [apply Z.leb_le in E; lia|].
    unfold _le_mp_load_l_high_partial. change (zlen (@nil Z)) with 0. apply wp_bind, wp_usub; [lia|]. apply wp_bind, wp_slice; [lia|rewrite zlen_zrepeat by lia; lia|].
    apply wp_bind, wp_slice; [lia|cbn; lia|]. cbn [skipn firstn Z.to_nat Z.sub Z.opp Z.add Z.pos_sub]. apply wp_ret. rewrite ZZ. unfold le_val. rewrite zrepeat_val. auto.
Qed.

Lemma zfor_max : forall T k (body : Z -> T -> M T) s, zfor 0 k body s = zfor 0 (Z.max 0 k) body s.
Proof. intros. unfold zfor. f_equal. lia. Qed.

(** One round of the first outer loop. *)
(** One round of the multiplication; [k] tells whether a carry gets lost. *)
Lemma wp_mg_mul_step_gen : forall t op0 op1 n n0 g p i sh cy (Q : mp * Z * Z -> Prop), mp_ok t -> mp_ok op0 -> mp_ok op1 -> mp_ok n ->
  nlimbs t = p + 1 -> nlimbs n = p + 1 -> 0 <= p -> load0_ok op1 -> nlimbs op1 <= p + 1 -> 0 <= i < nlimbs op0 ->
  n0 = vlimb (mpval n) 0 -> isl g -> lwmul n0 g = B - 1 -> isl sh -> (cy = 0 \/ cy = 1) ->
  (forall t' cy' sh' m k, mp_ok t' -> same_shape t t' -> (cy' = 0 \/ cy' = 1) -> isl sh' -> 0 <= m < B -> (k = 0 \/ k = 1) ->
     (k = 0 <-> acc t p sh cy + vlimb (mpval op0) i * mpval op1 < B ^ (p + 2)) ->
     B * acc t' p sh' cy' + k * B ^ (p + 2) = acc t p sh cy + vlimb (mpval op0) i * mpval op1 + m * mpval n -> Q (t', cy', sh')) ->
  wp (mg_mul_step op0 op1 n n0 g i (t, cy, sh)) Q.
Proof.
  intros t op0 op1 n n0 g p i sh cy Q Ht H0 H1 Hn Nt Nn Hp L1 N1 Hi0 En0 Hg Hi Hsh Hcy HQ.
  set (V0 := mpval t). set (N := mpval n) in *. set (O := mpval op1) in *. set (a := vlimb (mpval op0) i) in *.
  assert (Ha : isl a) by apply vlimb_isl.
  assert (HN : 0 <= N < B ^ (p + 1)) by (rewrite <- Nn; apply mpval_bound_B; auto).
  assert (HO : 0 <= O < B ^ nlimbs op1) by (apply mpval_bound_B; auto).
  assert (OP : O mod B ^ (p + 1) = O) by (apply vmod_big with (nlimbs op1); auto; lia).
  unfold mg_mul_step. rewrite Nn. apply wp_bind, wp_dassert; [apply Z.leb_le; lia|].
  apply wp_bind, wp_load; [auto|lia|]. rewrite limb_vlimb. fold a.
  apply wp_bind. eapply wp_mg_acc with (t := t) (V0 := V0) (p := p) (i := 0); [apply upinv_init; auto|auto|lia|lia|auto| |].
  { destruct (Z.eqb_spec (p + 1) 1), (Z.eqb_spec 0 p); auto; lia. }
  set (T := accT V0 p sh).
  apply wp_bind, wp_load_0; auto. fold O.
  apply wp_bind, wp_mul_add; auto using vlimb_isl, isl_0. intros q0 s0 Hq0 Hs0 E0.
  apply wp_bind, wp_kstart with (N := N); auto. intros m k HK. pose proof (kinv_m _ _ _ _ _ _ HK) as Hm.
  assert (V00 : forall x, vlimb x 0 = x mod B ^ (0 + 1)).
  { intros. change (0 + 1) with 1. rewrite Z.pow_1_r. unfold vlimb. change (B ^ 0) with 1. rewrite Z.div_1_r. auto. }
  set (J := Z.max 0 (nlimbs op1 - 1)). pose proof (nlimbs_nonneg op1) as N1'.
  assert (HJ : 0 <= J <= p /\ (J = nlimbs op1 - 1 \/ J = 0 /\ nlimbs op1 = 0)) by lia. rewrite zfor_max. fold J. clearbody J.
  apply wp_bind.
  apply wp_for with (I := minv t V0 T a O N m); [lia| | |].
  { exists 0, s0. split; [apply upinv_init; auto|]. split; [auto|]. split; [auto|]. split; [change (0 + 1) with 1; rewrite Z.pow_1_r; apply Hs0|]. rewrite <- !V00. change (0 + 1) with 1. rewrite Z.pow_1_r. lia. }
  { intros j ((t1, k1), q1) Hj (L & Sl & HU & HK1 & Hq1 & HS0 & HS).
    assert (J0 : 0 <= j) by lia. assert (J1 : j < p) by lia. assert (JF : (j + 1) * LB <= mp_len t) by (apply full_inner; lia).
    pf (Bpow_pos (j + 1)) as JP. apply wp_bind, wp_load; [auto|lia|]. rewrite limb_vlimb. fold O.
    apply wp_bind, wp_usub; [lia|].
    apply wp_bind. eapply wp_mg_acc; [exact HU|exact Nt|lia|lia|auto| |].
    { replace (p + 1 - 1) with p by lia. reflexivity. } fold T.
    apply wp_bind, wp_mul_add; auto using vlimb_isl. intros q' s' Hq' Hs' E'.
    apply wp_bind, wp_load; [auto|rewrite Nn; clear - J0 J1; lia|]. rewrite limb_vlimb. fold N.
    apply wp_bind. eapply wp_kupdate; [exact HK1|exact J0|auto|reflexivity|]. intros k' r Hr HK'.
    apply wp_bind. eapply wp_up_store_full; [exact HU|exact J0|exact JF|auto|]. intros t2 HU2. apply wp_ret.
    eexists _, _. split; [exact HU2|]. split; [exact HK'|]. split; [auto|]. split; [apply minv_rng; auto|].
    apply (minv_step _ T a O j q1 q' s' Sl); auto. clear - E'. lia. }
  intros ((t1, k1), q1) HM.
  apply wp_bind. assert (DA : wp (dassert (J + 1 =? nlimbs op1)) (fun _ => True)).
  { destruct L1 as [L1|(_ & D & _)]; [apply wp_dassert; [apply Z.eqb_eq; lia|auto]|]. unfold dassert. rewrite D. apply wp_ret. auto. }
  eapply wp_mono; [exact DA|]. intros _ _.
  apply wp_bind. apply wp_for with (I := minv t V0 T a O N m); [lia|exact HM| |].
  { clear HM t1 k1 q1.
    intros j ((t1, k1), q1) Hj (L & Sl & HU & HK1 & Hq1 & HS0 & HS).
    assert (J0 : 0 <= j) by lia. assert (J1 : j < p) by lia. assert (JF : (j + 1) * LB <= mp_len t) by (apply full_inner; lia).
    pf (Bpow_pos (j + 1)) as JP.
    apply wp_bind, wp_usub; [lia|].
    apply wp_bind. eapply wp_mg_acc; [exact HU|exact Nt|lia|lia|auto| |].
    { replace (p + 1 - 1) with p by lia. reflexivity. } fold T.
    apply wp_bind, wp_add_l; auto using vlimb_isl. intros q' s' Hq' Hs' E'.
    apply wp_bind, wp_load; [auto|rewrite Nn; clear - J0 J1; lia|]. rewrite limb_vlimb. fold N.
    apply wp_bind. eapply wp_kupdate; [exact HK1|exact J0|auto|reflexivity|]. intros k' r Hr HK'.
    apply wp_bind. eapply wp_up_store_full; [exact HU|exact J0|exact JF|auto|]. intros t2 HU2. apply wp_ret.
    eexists _, _. split; [exact HU2|]. split; [exact HK'|]. split; [destruct Hq' as [->| ->]; [apply isl_0|apply isl_1]|]. split; [apply minv_rng; auto|].
    apply (minv_step _ T a O j q1 q' s' Sl); auto. rewrite (vlimb_out O (nlimbs op1)) by (auto; lia). clear - E'. lia. }
  clear HM t1 k1 q1 HK. intros ((t1, k1), q1) (L & Sl & HU & HK & Hq & HS0 & HS). rewrite Z.max_r by lia.
  apply wp_bind, wp_dassert; [apply Z.eqb_eq; lia|]. apply wp_bind, wp_dassert; [apply Z.leb_le; lia|].
  replace (p + 1 - 1) with p in * by lia.
  assert (TF : T mod B ^ (p + 1) = T) by (apply Z.mod_small, accT_rng; auto; lia). rewrite TF, OP in HS.
  pf (Bpow_pos (p + 1)) as PP. pose proof B_gt as BG.
  apply wp_bind, wp_add_l; [destruct Hcy as [->| ->]; [apply isl_0|apply isl_1]|auto|]. intros cy2 v2 Hc2 Hv2 E2.
  assert (EP : B ^ (p + 2) = B ^ (p + 1) * B) by (replace (p + 2) with (p + 1 + 1) by lia; rewrite (Bpow_S (p + 1)) by lia; ring).
  assert (AE : acc t p sh cy + a * O = Sl + B ^ (p + 1) * (cy + q1)) by (rewrite acc_accT; fold V0 T; clear - HS; lia).
  assert (SB : Sl < B ^ (p + 1)) by apply HS0.
  assert (CQ : cy2 = 0 <-> acc t p sh cy + a * O < B ^ (p + 2)).
  { rewrite AE, EP. unfold isl in Hv2, Hq. split; intros CQ.
    - subst cy2. pf (mul_le_l (B ^ (p + 1)) (cy + q1) (B - 1)) as LT. clear - SB LT. lia.
    - assert (LT : B ^ (p + 1) * (cy + q1) < B ^ (p + 1) * B) by (clear - CQ HS0; lia).
      apply mul_lt_cancel in LT; auto. clear - Hc2 Hv2 LT E2. lia. }
  assert (V2 : cy2 = 0 \/ v2 = 0) by (unfold isl in Hv2, Hq; clear - Hc2 Hv2 Hq Hcy E2; lia).
  apply wp_bind, wp_dassert; [apply Z.leb_le; lia|]. apply wp_bind, wp_dassert; [apply orb_true_iff; destruct V2 as [->| ->]; [left|right]; reflexivity|].
  apply wp_bind. eapply wp_kfinish; [exact HK|lia|auto|auto|].
  intros cy' sh' Hc' Hs' HE. apply wp_bind, wp_dassert; [apply Z.leb_le; lia|]. apply wp_ret. apply (HQ _ _ _ m cy2); auto.
  - apply (upinv_ok _ _ _ _ _ HU).
  - apply (upinv_shape _ _ _ _ _ HU).
  - rewrite (acc_upinv _ _ _ _ _ _ _ HU), HE, AE, EP. replace (cy + q1) with (v2 + B * cy2) by lia. ring.
Qed.

Lemma wp_mg_mul_step : forall t op0 op1 n n0 g p i sh cy (Q : mp * Z * Z -> Prop), mp_ok t -> mp_ok op0 -> mp_ok op1 -> mp_ok n ->
  nlimbs t = p + 1 -> nlimbs n = p + 1 -> 0 <= p -> 1 <= nlimbs op1 <= p + 1 -> 0 <= i < nlimbs op0 ->
  n0 = vlimb (mpval n) 0 -> isl g -> lwmul n0 g = B - 1 -> isl sh -> (cy = 0 \/ cy = 1) ->
  acc t p sh cy + vlimb (mpval op0) i * mpval op1 < B ^ (p + 2) ->
  (forall t' cy' sh' m, mp_ok t' -> same_shape t t' -> (cy' = 0 \/ cy' = 1) -> isl sh' -> 0 <= m < B ->
     B * acc t' p sh' cy' = acc t p sh cy + vlimb (mpval op0) i * mpval op1 + m * mpval n -> Q (t', cy', sh')) ->
  wp (mg_mul_step op0 op1 n n0 g i (t, cy, sh)) Q.
Proof.
  intros t op0 op1 n n0 g p i sh cy Q Ht H0 H1 Hn Nt Nn Hp N1 Hi0 En0 Hg Hi Hsh Hcy HG HQ.
  apply wp_mg_mul_step_gen with (p := p); auto; [left; lia|lia|]. intros t' cy' sh' m k Ht' S' Hc' Hs' Hm _ HK HE.
  apply (HQ t' cy' sh' m); auto. apply HK in HG. lia.
Qed.
End Facts.
