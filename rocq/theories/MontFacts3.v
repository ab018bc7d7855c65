(** Facts about montgomery_impl.rs (ModelMont.v): one round of reduction and one round of multiplication. *)
From Coq Require Import ZArith List Bool Lia.
Require Import Verif.Spec Verif.Base Verif.Monad Verif.Wp Verif.ModelLimb Verif.LimbFacts Verif.LimbFacts2
  Verif.ModelBuf Verif.SpecBuf Verif.BufFacts Verif.BufFacts2 Verif.BufFacts3 Verif.UpFacts Verif.ModelCmp Verif.CmpFacts
  Verif.ModelAdd Verif.AddFacts Verif.ModelMont Verif.MontFacts Verif.MontFacts2.
Import ListNotations.
Open Scope Z_scope.

Section Facts.
Context {c : cfg}.

(** The accumulator: the low limbs are in the buffer, the high limb and the carry beside it. *)
Definition accT (V p sh : Z) : Z := V mod B ^ p + sh * B ^ p.
Definition acc (t : mp) (p sh cy : Z) : Z := mpval t mod B ^ p + sh * B ^ p + cy * B ^ (p + 1).

Lemma accT_rng : forall V p sh, 0 <= p -> isl sh -> 0 <= accT V p sh < B ^ (p + 1).
Proof.
  intros V p sh Hp Hsh. unfold accT. pf (Bpow_pos p). pf (Z.mod_pos_bound V (B ^ p)). rewrite Bpow_S by auto. unfold isl in Hsh.
  pf (mul_nn sh (B ^ p)). pf (mul_le_l (B ^ p) sh (B - 1)). lia.
Qed.
Lemma accT_div : forall V p sh, 0 <= p -> accT V p sh / B ^ p = sh.
Proof.
  intros V p sh Hp. unfold accT. pf (Bpow_pos p). pf (Z.mod_pos_bound V (B ^ p)). rewrite Z.div_add by lia.
  rewrite Z.div_small by lia. lia.
Qed.
Lemma accT_mod : forall V p sh, 0 <= p -> accT V p sh mod B ^ p = V mod B ^ p.
Proof.
  intros V p sh Hp. unfold accT. pf (Bpow_pos p). rewrite Z.mod_add by lia. apply Z.mod_mod. lia.
Qed.
Lemma accT_lo : forall V p sh j, 0 <= j < p -> vlimb (accT V p sh) j = vlimb V j.
Proof.
  intros V p sh j Hj. rewrite <- (limb_of_mod _ j p), accT_mod by lia. apply limb_of_mod. lia.
Qed.
Lemma accT_hi : forall V p sh, 0 <= p -> isl sh -> vlimb (accT V p sh) p = sh.
Proof. intros V p sh Hp Hsh. unfold vlimb. rewrite accT_div by auto. apply Z.mod_small. auto. Qed.
Lemma acc_accT : forall t p sh cy, acc t p sh cy = accT (mpval t) p sh + cy * B ^ (p + 1).
Proof. reflexivity. Qed.

(** The kernel after limbs 0 .. [j] went in and limbs 0 .. [j - 1], [L], came out; [Sl] is the
    value of the limbs fed to it. *)
Definition kinv (Sl N m j L : Z) (k : redc_kernel) : Prop :=
  exists X, rkst W m X k /\ B * L + B ^ j * X = Sl + m * (N mod B ^ (j + 1)).

Lemma kinv_m : forall Sl N m j L k, kinv Sl N m j L k -> 0 <= m < B.
Proof. intros Sl N m j L k (X & H & _). rewrite B_eq. apply H. Qed.

Lemma wp_kstart : forall s0 N n0 g (Q : redc_kernel -> Prop), isl s0 -> n0 = vlimb N 0 -> isl g -> lwmul n0 g = B - 1 ->
  (forall m k, kinv s0 N m 0 0 k -> Q k) -> wp (redc_start W s0 n0 g) Q.
Proof.
  intros s0 N n0 g Q Hs Hn Hg Hi HQ. pose proof W_pos. apply wp_redc_start; auto; [lia|subst; apply vlimb_isl|].
  intros m k HK. apply (HQ m). exists (s0 + m * n0). split; [auto|]. change (B ^ 0) with 1. change (0 + 1) with 1. rewrite Z.pow_1_r.
  subst n0. unfold vlimb. change (B ^ 0) with 1. rewrite Z.div_1_r. lia.
Qed.

Lemma wp_kupdate : forall Sl N m j L k t n (Q : redc_kernel * Z -> Prop), kinv Sl N m j L k -> 0 <= j -> isl t -> n = vlimb N (j + 1) ->
  (forall k' r, isl r -> kinv (Sl + t * B ^ (j + 1)) N m (j + 1) (L + r * B ^ j) k' -> Q (k', r)) ->
  wp (redc_update k t n) Q.
Proof.
  intros Sl N m j L k t n Q (X & HK & HE) Hj Ht Hn HQ. eapply wp_redc_update; [exact HK|auto|subst; apply vlimb_isl|].
  intros X' k' r HK' Hr HE'. apply HQ; auto. exists X'. split; [auto|]. rewrite <- B_eq in HE'.
  rewrite (vmod_S N (j + 1)) by lia. rewrite <- Hn. rewrite (Bpow_S j) in * by auto.
  set (P := B ^ j) in *. set (nm := N mod (B * P)) in *.
  replace (B * (L + r * P) + B * P * X') with (B * L + P * (B * r + B * X')) by ring. rewrite HE'.
  replace (B * L + P * (X + B * (t + m * n))) with (B * L + P * X + B * P * (t + m * n)) by ring. rewrite HE. ring.
Qed.

Lemma wp_kfinish : forall Sl N m p L k t (Q : Z * Z -> Prop), kinv Sl N m p L k -> 0 <= p -> isl t -> 0 <= N < B ^ (p + 1) ->
  (forall cy' sh', (cy' = 0 \/ cy' = 1) -> isl sh' -> B * (L + sh' * B ^ p + cy' * B ^ (p + 1)) = Sl + t * B ^ (p + 1) + m * N -> Q (cy', sh')) ->
  wp (redc_finish k t) Q.
Proof.
  intros Sl N m p L k t Q (X & HK & HE) Hp Ht HN HQ. eapply wp_redc_finish; [exact HK|auto|].
  intros k' r Hk' Hr HE'. apply HQ; auto. rewrite Z.mod_small in HE by auto. rewrite (Bpow_S p) in * by auto.
  set (P := B ^ p) in *. replace (B * (L + r * P + k' * (B * P))) with (B * L + P * (B * (r + B * k'))) by ring. rewrite HE'.
  replace (B * L + P * (X + B * t)) with (B * L + P * X + t * (B * P)) by ring. rewrite HE. ring.
Qed.

Lemma acc_upinv : forall t0 V0 p L t sh cy, upinv t0 V0 p L t -> acc t p sh cy = L + sh * B ^ p + cy * B ^ (p + 1).
Proof.
  intros t0 V0 p L t sh cy H. unfold acc. rewrite (upinv_V _ _ _ _ _ H).
  replace ((L + B ^ p * (V0 / B ^ p)) mod B ^ p) with L; [auto|]. symmetry. apply lohi_mod. apply (upinv_L _ _ _ _ _ H).
Qed.

(** One round of ct_montgomery_redc_mp. *)
Lemma wp_redc_step : forall t n n0 g p sh cy (Q : mp * Z * Z -> Prop), mp_ok t -> mp_ok n -> nlimbs t = p + 1 -> 2 <= nlimbs n <= nlimbs t ->
  n0 = vlimb (mpval n) 0 -> isl g -> lwmul n0 g = B - 1 -> isl sh -> (cy = 0 \/ cy = 1) ->
  (forall t' cy' sh' m, mp_ok t' -> same_shape t t' -> (cy' = 0 \/ cy' = 1) -> isl sh' -> 0 <= m < B ->
     B * acc t' p sh' cy' = acc t p sh cy + m * mpval n -> Q (t', cy', sh')) ->
  wp (redc_step n n0 g (p + 1) (nlimbs n) (t, cy, sh)) Q.
Proof.
  intros t n n0 g p sh cy Q Ht Hn Nt Hnn En0 Hg Hi Hsh Hcy HQ.
  set (nn := nlimbs n) in *. set (V0 := mpval t). set (N := mpval n) in *. set (T := accT V0 p sh).
  assert (HN : 0 <= N < B ^ (p + 1)).
  { pose proof (mpval_bound_B n Hn). fold N nn in H. assert (B ^ nn <= B ^ (p + 1)) by (apply Z.pow_le_mono_r; [apply B_pos|lia]). lia. }
  assert (NZ : forall j, nn <= j -> vlimb N j = 0).
  { intros j Hj. apply vlimb_out with nn; [apply mpval_bound_B; auto|auto]. }
  assert (TL : forall j, 0 <= j < p -> vlimb T j = vlimb V0 j) by (intros; apply accT_lo; auto).
  assert (TH : vlimb T p = sh) by (apply accT_hi; auto; lia).
  unfold redc_step. apply wp_bind, wp_load; [auto|lia|]. rewrite limb_vlimb. fold V0. rewrite <- TL by lia.
  apply wp_bind, wp_kstart with (N := N); auto; [apply vlimb_isl|]. intros m k HK. pose proof (kinv_m _ _ _ _ _ _ HK) as Hm.
  assert (HK0 : kinv (T mod B ^ (0 + 1)) N m 0 0 k).
  { change (0 + 1) with 1. rewrite Z.pow_1_r. replace (vlimb T 0) with (T mod B) in HK; [auto|]. unfold vlimb. change (B ^ 0) with 1. rewrite Z.div_1_r. auto. }
  clear HK. apply wp_bind.
  apply wp_for with (I := fun j '(t', k) => exists L, upinv t V0 j L t' /\ kinv (T mod B ^ (j + 1)) N m j L k); [lia| | |].
  { exists 0. split; [apply upinv_init; auto|auto]. }
  { intros j (t1, k1) Hj (L & HU & HK). apply wp_bind, wp_dassert_m; [apply wp_bind, wp_usub; [lia|]; apply wp_ret; apply Z.ltb_lt; lia|].
    apply wp_bind. eapply wp_up_load_full; [exact HU|lia|apply full_inner; lia|]. rewrite <- TL by lia.
    apply wp_bind, wp_load_full; [auto|lia|apply full_inner; fold nn; lia|]. rewrite limb_vlimb. fold N.
    apply wp_bind. eapply wp_kupdate; [exact HK|lia|apply vlimb_isl|reflexivity|]. intros k' r Hr HK'.
    apply wp_bind. eapply wp_up_store_full; [exact HU|lia|apply full_inner; lia|auto|]. intros t2 HU2. apply wp_ret.
    eexists. split; [exact HU2|]. rewrite (vmod_S T (j + 1)) by lia. exact HK'. }
  intros (t1, k1) (L1 & HU1 & HK1). rewrite Z.max_r by lia. replace (nn - 2 + 2) with nn by lia. replace (nn - 2 + 1) with (nn - 1) in * by lia.
  apply wp_bind, wp_dassert; [apply Z.eqb_refl|].
  apply wp_bind. assert (LT : wp (mif negb (nn =? p + 1) then load_l_full t1 (nn - 1) else ret sh) (fun v => v = vlimb T (nn - 1))).
  { apply wp_mif; intros E; cbn beta.
    - apply negb_true_iff, Z.eqb_neq in E. eapply wp_up_load_full; [exact HU1|lia|apply full_inner; lia|]. symmetry; apply TL. lia.
    - apply negb_false_iff, Z.eqb_eq in E. apply wp_ret. rewrite <- TH. f_equal. lia. }
  eapply wp_mono; [exact LT|]. cbn beta. intros tv ->. clear LT.
  apply wp_bind, wp_load; [auto|fold nn; lia|]. rewrite limb_vlimb. fold N.
  apply wp_bind. eapply wp_kupdate; [exact HK1|lia|apply vlimb_isl|f_equal; lia|]. intros k2 r2 Hr2 HK2.
  replace (nn - 2 + 1) with (nn - 1) in * by lia. rewrite <- (vmod_S T (nn - 1)) in HK2 by lia.
  apply wp_bind. eapply wp_up_store_full; [exact HU1|lia|apply full_inner; lia|auto|]. intros t2 HU2.
  replace (nn - 2 + 1) with (nn - 1) in * by lia. clear HU1 HK1.
  revert HU2 HK2. generalize (L1 + r2 * B ^ (nn - 2)). clear L1. intros L2 HU2 HK2.
  apply wp_bind.
  assert (LP : wp (zfor (nn - 1) (p + 1 - 2) (fun j '(t, k) =>
    let! t_val := load_l_full t (j + 1) in
    let! '(k, r) := redc_update k t_val 0 in
    let! t := store_l_full t j r in
    ret (t, k)) (t2, k2)) (fun '(t', k) => exists L, let j := Z.max (nn - 1) (p - 1) in upinv t V0 j L t' /\ kinv (T mod B ^ (j + 1)) N m j L k)).
  { destruct (Z_le_gt_dec (nn - 1) (p - 1)) as [LE|GT].
    - apply wp_for with (I := fun j '(t', k) => exists L, upinv t V0 j L t' /\ kinv (T mod B ^ (j + 1)) N m j L k); [lia| | |].
      + exists L2. split; auto.
      + intros j (t3, k3) Hj (L & HU & HK). apply wp_bind. eapply wp_up_load_full; [exact HU|lia|apply full_inner; lia|]. rewrite <- TL by lia.
        apply wp_bind. eapply wp_kupdate; [exact HK|lia|apply vlimb_isl|symmetry; apply NZ; lia|]. intros k' r Hr HK'.
        apply wp_bind. eapply wp_up_store_full; [exact HU|lia|apply full_inner; lia|auto|]. intros t4 HU4. apply wp_ret.
        eexists. split; [exact HU4|]. rewrite (vmod_S T (j + 1)) by lia. exact HK'.
      + intros (t3, k3) (L & HU & HK). exists L. rewrite Z.max_r by lia. cbn zeta. replace (p + 1 - 2) with (p - 1) in * by lia. auto.
    - apply wp_for_empty; [lia|]. exists L2. rewrite Z.max_l by lia. cbn zeta. auto. }
  eapply wp_mono; [exact LP|]. clear LP. intros (t3, k3) (L3 & HU3 & HK3).
  replace (p + 1 - 2) with (p - 1) by lia. set (j := Z.max (nn - 1) (p - 1)) in *.
  apply wp_bind, wp_usub; [lia|]. replace (p + 1 - 1) with p by lia.
  apply wp_bind.
  assert (LP : wp (mif (j + 1 =? p) then
      let! '(k, r) := redc_update k3 sh 0 in
      let! t := store_l_full t3 j r in
      ret (t, k, j + 1)
    else ret (t3, k3, j)) (fun '(t', k, j') => j' = p /\ exists L, upinv t V0 p L t' /\ kinv T N m p L k)).
  { assert (TF : T mod B ^ (p + 1) = T) by (apply Z.mod_small, accT_rng; auto; lia).
    apply wp_mif; intros E.
    - apply Z.eqb_eq in E. apply wp_bind. eapply wp_kupdate; [exact HK3|lia|auto|symmetry; apply NZ; lia|]. intros k' r Hr HK'.
      apply wp_bind. eapply wp_up_store_full; [exact HU3|lia|apply full_inner; lia|auto|]. intros t4 HU4. apply wp_ret.
      split; [auto|]. clearbody T. rewrite E in HU4, HK'. rewrite <- TH in HK'. rewrite <- vmod_S, TF in HK' by lia. eauto.
    - apply Z.eqb_neq in E. apply wp_ret. assert (j = p) by lia. split; [auto|]. exists L3. rewrite <- TF. rewrite <- H. auto. }
  eapply wp_mono; [exact LP|]. clear LP. intros ((t4, k4), j4) (-> & L4 & HU4 & HK4).
  apply wp_bind, wp_dassert; [apply Z.eqb_refl|].
  apply wp_bind. eapply wp_kfinish; [exact HK4|lia|destruct Hcy as [->| ->]; [apply isl_0|apply isl_1]|auto|].
  intros cy' sh' Hc' Hs' HE. apply wp_ret. apply (HQ _ _ _ m); auto.
  - apply (upinv_ok _ _ _ _ _ HU4).
  - apply (upinv_shape _ _ _ _ _ HU4).
  - rewrite (acc_upinv _ _ _ _ _ _ _ HU4), HE, acc_accT. fold V0 T. ring.
Qed.
End Facts.
