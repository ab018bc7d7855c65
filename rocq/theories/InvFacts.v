(** Facts about the model of ct_inv_mod_pow2_mp. *)
From Coq Require Import ZArith List Bool Lia.
Require Import Verif.Spec Verif.Base Verif.Monad Verif.Wp Verif.ModelLimb Verif.LimbFacts Verif.LimbFacts2
  Verif.ModelBuf Verif.SpecBuf Verif.BufFacts Verif.BufFacts2 Verif.BufFacts3 Verif.UpFacts Verif.ModelCmp Verif.CmpFacts
  Verif.ModelMul Verif.MulFacts Verif.MulFacts2 Verif.SpecMul Verif.SqExact Verif.Wx Verif.SpecMont Verif.MontFacts5 Verif.SpecEuclid Verif.ModelEuclid Verif.ModelInv Verif.SpecInv.
Import ListNotations.
Open Scope Z_scope.

Section Facts.
Context {c : cfg}.

Lemma mod_pow_le : forall x y a b P, 0 < P -> 0 <= a <= b -> x mod P ^ b = y mod P ^ b -> x mod P ^ a = y mod P ^ a.
Proof.
  intros x y a b P HP Hab E. assert (PD : P ^ b = P ^ a * P ^ (b - a)) by (rewrite <- Z.pow_add_r by lia; f_equal; lia).
  pf (Z.pow_pos_nonneg P a). pf (Z.pow_pos_nonneg P (b - a)).
  assert (R : forall z, z mod P ^ a = z mod P ^ b mod P ^ a).
  { intros z. rewrite PD. rewrite Z.rem_mul_r by lia. rewrite Z.mul_comm, Z.mod_add by lia. symmetry. apply Z.mod_mod. lia. }
  rewrite (R x), (R y), E. reflexivity.
Qed.

(** Storing the highest limb. *)
Lemma wp_up_store_hm : forall a V0 i L b x (Q : mp -> Prop), mp_ok a -> upinv a V0 i L b -> 0 <= i < nlimbs a -> isl x ->
  (forall b' y, 0 <= y < B -> upinv a V0 (i + 1) (L + y * B ^ i) b' -> (i + 1 < nlimbs a -> y = x) ->
     (exists q, x = y + lim a i * q) -> Q b') ->
  wp (store_high_masked b i x) Q.
Proof.
  intros a V0 i L b x Q Ha U Hi Hx HQ. unfold store_high_masked. rewrite (upinv_nlimbs _ _ _ _ _ U). apply wp_mif; intros E.
  - apply negb_true_iff, Z.eqb_neq in E. eapply wp_up_store_full; eauto; [lia|apply full_inner; lia|].
    intros b' U'. eapply HQ; eauto. exists 0. lia.
  - apply negb_false_iff, Z.eqb_eq in E. apply wp_bind. apply wp_partial_high_mask; [rewrite (upinv_nlimbs _ _ _ _ _ U); lia|].
    assert (EL : lim b (nlimbs b - 1) = lim a i). { rewrite (upinv_nlimbs _ _ _ _ _ U). replace (nlimbs a - 1) with i by lia. apply lim_shape, U. }
    assert (Nb : 0 < nlimbs b) by (rewrite (upinv_nlimbs _ _ _ _ _ U); lia).
    pose proof (land_lim b x Nb) as LL. rewrite EL in *. rewrite LL. pose proof (lim_pos a i Hi) as LP.
    pf (Z.mod_pos_bound x (lim a i)) as MB.
    eapply wp_up_store; eauto. intros b' U'. eapply HQ; [|exact U'| |].
    + lia.
    + lia.
    + exists (x / lim a i). rewrite (Z.div_mod x (lim a i)) at 1 by lia. lia.
Qed.

Lemma double_limb : forall a, isl a -> a * 2 ^ 1 mod B = 2 * a - B * (a / 2 ^ (W - 1)) /\ (a / 2 ^ (W - 1) = 0 \/ a / 2 ^ (W - 1) = 1).
Proof.
  intros a Ha. unfold isl in Ha. pose proof W_pos. assert (EB : B = 2 * 2 ^ (W - 1)).
  { unfold B. rewrite <- Z.pow_succ_r by lia. f_equal. lia. }
  pf (pow2_gt0 (W - 1)) as PP. set (P := 2 ^ (W - 1)) in *. change (2 ^ 1) with 2. rewrite EB in *.
  assert (D : a / P = 0 \/ a / P = 1).
  { pf (Z.div_pos a P). pf (Z.div_lt_upper_bound a P 2). lia. }
  split; auto. pose proof (Z.div_mod a P) as DM. pf (Z.mod_pos_bound a P).
  symmetry. apply Z.mod_unique with (q := a / P); [left|]; destruct D as [D|D]; rewrite D in *; lia.
Qed.

Lemma dsub_eq : forall L P b a t A T cy bo cy' bo' r y lm q,
  L + cy * P - bo * P = 2 * A - T -> 2 * a + cy = b * cy' + (r + t + bo - b * bo') -> r = y + lm * q ->
  (L + y * P) + (b * P) * cy' - (b * P) * bo' + (lm * P) * q = 2 * (A + a * P) - (T + t * P).
Proof. intros. subst r. assert (E : L = 2 * A - T - cy * P + bo * P) by lia. rewrite E. assert (E2 : a * 2 = b * cy' + (y + lm * q + t + bo - b * bo') - cy) by lia.
  replace (2 * (A + a * P) - (T + t * P)) with (2 * A - T + (a * 2) * P - t * P) by ring. rewrite E2. ring. Qed.

Lemma wp_double_sub : forall a t n cl (Q : mp -> Prop), mp_ok a -> mp_ok t -> 0 < n <= nlimbs a -> n <= nlimbs t ->
  0 <= cl <= mp_len a -> cl <= n * LB ->
  (forall a', mp_ok a' -> same_shape a a' -> mpval a' mod 256 ^ cl = (2 * mpval a - mpval t) mod 256 ^ cl -> Q a') ->
  wp (inv_pow2_double_sub a t n) Q.
Proof.
  intros a t n cl Q Ha Ht Hn Hnt Hcl Hcl2 HQ. unfold inv_pow2_double_sub. set (A := mpval a). set (T := mpval t).
  pose proof LB_pos as HLB. pose proof B_gt as HB. assert (HW : 1 < W) by (destruct W_cases as [-> | ->]; lia).
  apply wp_bind.
  apply wp_for with (I := fun j '(a', cy, bo) => exists L q, upinv a A j L a' /\ (cy = 0 \/ cy = 1) /\ (bo = 0 \/ bo = 1) /\
    L + cy * B ^ j - bo * B ^ j + 256 ^ mp_len a * q = 2 * (A mod B ^ j) - T mod B ^ j /\ (j < nlimbs a -> q = 0)); [lia| | |].
  - exists 0, 0. split; [apply upinv_init; auto|]. split; [auto|]. split; [auto|]. rewrite !vmod_0. split; lia.
  - intros j [[a' cy] bo] Hj (L & q & U & Hcy & Hbo & EL & Hq). assert (q = 0) by (apply Hq; lia). subst q. clear Hq.
    apply wp_bind. eapply wp_up_load; eauto; [lia|lia|].
    apply wp_bind, wp_load; auto; [lia|]. rewrite limb_vlimb. fold T.
    apply wp_bind, wp_sub32; [lia|]. apply wp_bind, wp_lshr; [lia|]. apply wp_bind, wp_lshl; [lia|].
    pose proof (vlimb_isl A j) as VA. destruct (double_limb (vlimb A j) VA) as [E2 HC]. rewrite E2.
    set (cy' := vlimb A j / 2 ^ (W - 1)) in *.
    assert (HBE : exists h, B = 2 * h). { exists (2 ^ (W - 1)). unfold B. rewrite <- Z.pow_succ_r by lia. f_equal. lia. }
    destruct HBE as [h HBE].
    assert (R1 : 0 <= 2 * vlimb A j - B * cy' + cy < B).
    { pf (Z.mod_pos_bound (vlimb A j * 2 ^ 1) B) as MB. rewrite E2 in MB. destruct HC as [-> | ->]; lia. }
    apply wp_bind, wp_ladd; [auto|].
    apply wp_bind, wp_sub_b; [exact R1|apply vlimb_isl|lia|]. intros bo' r Hbo' Hr ER.
    apply wp_bind. apply (wp_up_store_hm a A j L); auto; [lia|]. intros a'' y Hy U' Hlow [q Eq]. apply wp_ret.
    assert (HJ : 0 <= j < nlimbs a) by lia. pose proof (lim_pos a j HJ) as LPj.
    assert (Q0 : j + 1 < nlimbs a -> q = 0).
    { intros Hl. rewrite (Hlow Hl) in Eq. assert (E0 : lim a j * q = 0) by lia. apply Z.mul_eq_0 in E0. lia. }
    assert (LP : lim a j * B ^ j * q = 256 ^ mp_len a * q).
    { destruct (Z.eq_dec (j + 1) (nlimbs a)) as [Ej|Ej].
      - rewrite <- lim_total by lia. replace (nlimbs a - 1) with j by lia. ring.
      - rewrite (Q0 ltac:(lia)). ring. }
    exists (L + y * B ^ j), q. split; [exact U'|]. split; [auto|]. split; [auto|]. split.
    + rewrite !vmod_S, Bpow_S by lia. rewrite <- LP.
      assert (EL2 : L + cy * B ^ j - bo * B ^ j = 2 * (A mod B ^ j) - T mod B ^ j) by lia.
      assert (E3 : 2 * vlimb A j + cy = B * cy' + (r + vlimb T j + bo - B * bo')) by lia.
      pose proof (dsub_eq L (B ^ j) B _ _ _ _ cy bo cy' bo' r y (lim a j) q EL2 E3 Eq) as DE. lia.
    + intros Hl. auto.
  - intros [[a' cy] bo] (L & q & U & Hcy & Hbo & EL & Hq). apply wp_ret. apply HQ; [apply U|apply U|].
    rewrite (upinv_V _ _ _ _ _ U). pf (p256_pos cl) as PC.
    assert (DB : exists m, B ^ n = 256 ^ cl * m).
    { exists (256 ^ (n * LB - cl)). rewrite <- Z.pow_add_r by lia. replace (cl + (n * LB - cl)) with (n * LB) by lia.
      apply Bpow256. lia. }
    assert (DL : exists m, 256 ^ mp_len a = 256 ^ cl * m).
    { exists (256 ^ (mp_len a - cl)). rewrite <- Z.pow_add_r by lia. f_equal. lia. }
    destruct DB as [m1 EB]. destruct DL as [m2 ELn].
    pose proof (Z.div_mod A (B ^ n)) as DA. pose proof (Z.div_mod T (B ^ n)) as DT. pf (Bpow_pos n) as BP.
    assert (EE : L + B ^ n * (A / B ^ n) = 2 * A - T + 256 ^ cl * (m1 * (T / B ^ n - A / B ^ n - cy + bo) - m2 * q)).
    { transitivity (2 * A - T + B ^ n * (T / B ^ n - A / B ^ n - cy + bo) - 256 ^ mp_len a * q); [lia|]. rewrite EB at 1. rewrite ELn. ring. }
    rewrite EE. rewrite (Z.mul_comm (256 ^ cl)). apply Z.mod_add. lia.
Qed.


Lemma nlimbs_mono : forall a b, 0 <= a <= b -> ct_mp_nlimbs a <= ct_mp_nlimbs b.
Proof.
  intros a b Hab. pf (ct_mp_nlimbs_spec a) as S1. pf (ct_mp_nlimbs_spec b) as S2. pose proof LB_pos.
  assert (H0 : ct_mp_nlimbs a * LB < (ct_mp_nlimbs b + 1) * LB) by lia. apply Z.mul_lt_mono_pos_r in H0; lia.
Qed.

Lemma eqm_mul_mod : forall x y z P m, 0 < P -> (exists q, m = P * q) -> 0 < m -> x mod P = y mod P -> (x * z) mod m mod P = (y * z) mod P.
Proof.
  intros x y z P m HP [q Hq] Hm E. subst m. rewrite Z.rem_mul_r, (Z.mul_comm P), Z.mod_add, Z.mod_mod by (try lia; intros ->; lia).
  rewrite (Z.mul_mod x), E, <- Z.mul_mod by lia. reflexivity.
Qed.

Lemma wx_inv_step : forall ex r t x cur mx ml (Q : mp * mp * Z -> Prop), mp_ok r -> mp_ok t -> mp_ok x ->
  0 < cur < mx -> mx <= 8 * ml -> ml <= mp_len r -> ml <= mp_len t -> mpval r < 2 ^ cur -> square_ok (nlimbs t) (mpval r) \/ (debug c = true /\ ex = true) ->
  (forall r' t', square_ok (nlimbs t) (mpval r) -> mp_ok r' -> same_shape r r' -> mp_ok t' -> same_shape t t' -> mpval r' < 2 ^ (2 * cur) ->
     let m := 2 ^ Z.min (2 * cur) (8 * ml) in
     mpval r' mod m = (2 * mpval r - mpval x * mpval r ^ 2) mod m -> Q (r', t', 2 * cur)) ->
  wx ex (inv_pow2_step r t x cur ml) Q.
Proof.
  intros ex r t x cur mx ml Q Hr Ht Hx Hc Hm Lr Lt HV HS HQ. unfold inv_pow2_step. set (h := mpval r) in *. set (X := mpval x) in *.
  pose proof (mpval_nonneg r Hr) as N0. fold h in N0. pose proof LB_pos as HLB.
  set (n := (cur + 7) / 8). assert (Hn : 8 * n - 7 <= cur <= 8 * n). { unfold n. pose proof (Z.div_mod (cur + 7) 8). pf (Z.mod_pos_bound (cur + 7) 8). lia. }
  assert (Hn1 : 0 < n <= ml) by lia.
  assert (HVn : h < 256 ^ n). { rewrite pow256 by lia. eapply Z.lt_le_trans; [exact HV|]. apply Z.pow_le_mono_r; lia. }
  assert (HVt : forall l, ml <= l -> h < 256 ^ l). { intros l Hl. eapply Z.lt_le_trans; [exact HVn|]. apply Z.pow_le_mono_r; lia. }
  xb; apply wp_copy_from; auto. intros t1 O1 S1 V1. fold h in V1. pose proof (shape_len _ _ S1) as L1.
  assert (EM : mpval t1 mod 256 ^ n = h) by (rewrite V1; apply Z.mod_small; lia).
  apply wx_bindx, wx_square_ok; auto; [lia|rewrite EM, (shape_nlimbs _ _ S1); exact HS|]. rewrite EM, (shape_nlimbs _ _ S1). intros t2 SQ (O2 & S2 & V2). pose proof (shape_len _ _ S2) as L2.
  set (cl := Z.min (2 * n) ml). assert (Hcl : 0 < cl <= ml) by lia.
  xb; apply wp_mul_trunc; auto; [lia|]. intros t3 (O3 & S3 & V3). pose proof (shape_len _ _ S3) as L3.
  pf (p256_pos cl) as PC.
  assert (DT : forall l, cl <= l -> exists q, 256 ^ l = 256 ^ cl * q).
  { intros l Hl. exists (256 ^ (l - cl)). rewrite <- Z.pow_add_r by lia. f_equal. lia. }
  assert (E3 : mpval t3 mod 256 ^ cl = (X * h ^ 2) mod 256 ^ cl).
  { rewrite V3. rewrite (Z.mul_comm X). apply eqm_mul_mod; [auto|apply DT; lia|apply p256_pos; lia|].
    rewrite Z.mod_mod by lia. rewrite V2. replace (h ^ 2) with (h * h) by ring.
    rewrite <- (Z.mul_1_r (h * h)) at 1. rewrite (eqm_mul_mod (h * h) (h * h) 1); [f_equal; lia|auto|apply DT; lia|apply p256_pos; lia|auto]. }
  pf (ct_mp_nlimbs_spec cl) as NS.
  xb. apply wp_double_sub with (cl := cl); auto.
  - split; [|unfold nlimbs; apply nlimbs_mono; lia]. apply (mul_lt_cancel LB); lia.
  - unfold nlimbs. apply nlimbs_mono. lia.
  - lia.
  - lia.
  - intros r1 Or Sr Er. xb; apply wp_clear_bits_above; [auto|lia|]. intros r2 (Or2 & Sr2 & Vr2). xr.
    rewrite (Z.mul_comm cur). apply HQ; auto; [eapply shape_trans; eauto|eapply shape_trans; [eapply shape_trans|]; eauto| |].
    + rewrite Vr2. rewrite (Z.mul_comm cur). apply Z.mod_pos_bound. apply pow2_gt0. lia.
    + cbv zeta. rewrite Vr2. set (m := Z.min (2 * cur) (8 * ml)). assert (Hmm : 0 <= m <= 2 * cur) by lia.
      assert (E1 : forall z, z mod 2 ^ (cur * 2) mod 2 ^ m = z mod 2 ^ m).
      { intros z. apply (mod_pow_le _ _ m (cur * 2) 2); [lia|lia|]. apply Z.mod_mod. pf (pow2_gt0 (cur * 2)). lia. }
      rewrite E1. apply (mod_pow_le _ _ m (8 * cl) 2); [lia|lia|]. rewrite <- pow256 by lia. rewrite Er. fold h.
      rewrite Zminus_mod, E3, <- Zminus_mod. reflexivity.
Qed.

Lemma hensel_range : forall x k, 0 <= hensel x k < 2 ^ (2 ^ Z.of_nat k).
Proof.
  intros x k. destruct k; [cbn; lia|]. cbn [hensel]. apply Z.mod_pos_bound. apply pow2_gt0. apply Z.pow_nonneg. lia.
Qed.
Definition lifting (ex : bool) (t x : mp) (mx : Z) : Prop :=
  (forall k, 2 ^ Z.of_nat k < mx -> square_ok (nlimbs t) (hensel (mpval x) k)) \/ (debug c = true /\ ex = true).
Lemma pow_lt_nat : forall a b, 2 ^ Z.of_nat a < 2 ^ Z.of_nat b -> (a < b)%nat.
Proof. intros a b H. apply Z.pow_lt_mono_r_iff in H; lia. Qed.

Lemma wx_inv_loop : forall ex fuel k r t x mx ml (Q : mp * mp -> Prop), mp_ok r -> mp_ok t -> mp_ok x ->
  0 < mx <= 8 * ml -> ml <= mp_len r -> ml <= mp_len t -> lifting ex t x mx ->
  mx <= 2 ^ (Z.of_nat k + Z.of_nat fuel) ->
  (forall k', (k' < k)%nat -> 2 ^ Z.of_nat k' < mx -> square_ok (nlimbs t) (hensel (mpval x) k')) ->
  (2 ^ Z.of_nat k < mx -> mpval r = hensel (mpval x) k) ->
  (mx <= 2 ^ Z.of_nat k -> mpval r mod 2 ^ mx = hensel (mpval x) k mod 2 ^ mx) ->
  (forall r' t' k, (forall k', 2 ^ Z.of_nat k' < mx -> square_ok (nlimbs t) (hensel (mpval x) k')) -> mp_ok r' -> same_shape r r' -> mp_ok t' -> same_shape t t' -> mx <= 2 ^ Z.of_nat k ->
     mpval r' mod 2 ^ mx = hensel (mpval x) k mod 2 ^ mx -> Q (r', t')) ->
  wx ex (inv_pow2_loop fuel r t x (2 ^ Z.of_nat k) mx ml) Q.
Proof.
  intros ex. induction fuel as [|fuel IH]; intros k r t x mx ml Q Hr Ht Hx Hm Lr Lt LF HF DONE H1 H2 HQ; cbn [inv_pow2_loop]; apply wx_mif; intros E.
  - apply Z.ltb_lt in E. replace (Z.of_nat k + Z.of_nat 0) with (Z.of_nat k) in HF by lia. lia.
  - apply Z.ltb_ge in E. apply wx_ret. eapply HQ; eauto; [intros k' Hk'; apply DONE; [apply (pow_lt_nat k' k); lia|auto]|apply shape_refl|apply shape_refl].
  - apply Z.ltb_lt in E. specialize (H1 E). pose proof (hensel_range (mpval x) k) as HR.
    assert (HK : 0 < 2 ^ Z.of_nat k) by (apply pow2_gt0; lia).
    assert (HK2 : 2 ^ Z.of_nat (S k) = 2 * 2 ^ Z.of_nat k) by (rewrite Nat2Z.inj_succ, Z.pow_succ_r by lia; reflexivity).
    apply wx_bindx. eapply wx_inv_step with (mx := mx); eauto; [lia|rewrite H1; apply HR|rewrite H1; destruct LF as [LF|LF]; [left; apply LF; auto|right; auto]|].
    intros r' t' SQ Or Sr Ot St Vr. cbv zeta. rewrite H1. intros ER. rewrite <- HK2 in *.
    pose proof (shape_len _ _ Sr). pose proof (shape_len _ _ St).
    assert (HH : (2 * hensel (mpval x) k - mpval x * hensel (mpval x) k ^ 2) mod 2 ^ (2 ^ Z.of_nat (S k)) = hensel (mpval x) (S k)) by reflexivity.
    rewrite H1 in SQ. eapply IH; eauto; try lia.
    + unfold lifting. rewrite (shape_nlimbs _ _ St). exact LF.
    + replace (Z.of_nat (S k) + Z.of_nat fuel) with (Z.of_nat k + Z.of_nat (S fuel)) by lia. auto.
    + intros k' Hk' Hm'. rewrite (shape_nlimbs _ _ St). destruct (Nat.eq_dec k' k) as [->|NK]; [exact SQ|]. apply DONE; [lia|auto].
    + intros HL. rewrite Z.min_l in ER by lia. rewrite HH in ER. rewrite <- ER. symmetry. apply Z.mod_small.
      split; [apply mpval_nonneg; auto|auto].
    + intros HL. rewrite <- HH.
      assert (P0 : 0 < 2 ^ 2 ^ Z.of_nat (S k)) by (apply pow2_gt0; lia).
      etransitivity; [eapply (mod_pow_le _ _ mx _ 2); [lia| |exact ER]; lia|].
      symmetry. apply (mod_pow_le _ _ mx (2 ^ Z.of_nat (S k)) 2); [lia|lia|apply Z.mod_mod; lia].
    + intros r2 t2 k2 SQ2 O2 S2 Ot2 St2. rewrite (shape_nlimbs _ _ St) in SQ2. apply HQ; auto; eapply shape_trans; eauto.
  - apply Z.ltb_ge in E. apply wx_ret. eapply HQ; eauto; [intros k' Hk'; apply DONE; [apply (pow_lt_nat k' k); lia|auto]|apply shape_refl|apply shape_refl].
Qed.

Lemma not_empty : forall b, 0 < mp_len b -> mp_is_empty b = false.
Proof. intros b H. pose proof LB_pos. destruct b as [l|l|l]; cbn [mp_is_empty mp_len] in *; apply Z.eqb_neq; intros E; rewrite E in H; lia. Qed.

Lemma wx_inv_pow2 : forall ex r x e mx s (Q : mp * list Z -> Prop), mp_ok r -> mp_ok x -> mp_ok (NE s) -> 0 < mp_len x ->
  0 <= e <= mx -> 0 < mx -> mx <= 8 * mp_len r -> mx <= 8 * (LB * zlen s) -> (e = 0 \/ Z.odd (mpval x) = true) -> liftable (mpval x) mx \/ (debug c = true /\ ex = true) ->
  (forall r' s' k, liftable (mpval x) mx -> mp_ok r' -> same_shape r r' -> mp_ok (NE s') -> zlen s' = zlen s -> mx <= 2 ^ Z.of_nat k ->
     mpval r' = hensel (mpval x) k mod 2 ^ e -> Q (r', s')) ->
  wx ex (ct_inv_mod_pow2_mp r x e mx s) Q.
Proof.
  intros ex r x e mx s Q Hr Hx Hs Lx He Hm Lr Ls HO LF HQ. unfold ct_inv_mod_pow2_mp. pose proof LB_pos as HLB. pose proof B_gt as HB.
  xb; apply wp_dassert. { apply negb_true_iff. apply not_empty; auto. }
  xb; apply wp_dassert_m.
  { apply wp_mif; intros E; [apply wp_ret; auto|]. apply Z.eqb_neq in E. destruct HO as [HO|HO]; [contradiction|].
    apply wp_bind, wp_load; auto.
    { pose proof (nlimbs_spec x). split; [lia|]. apply (mul_lt_cancel LB); lia. }
    apply wp_ret. apply Z.eqb_eq. rewrite limb_vlimb. change 1 with (Z.ones 1) at 1. rewrite Z.land_ones by lia. change (2 ^ 1) with 2. rewrite Zmod_odd, vlimb0_odd, HO. reflexivity. }
  xb; apply wp_dassert; [apply negb_true_iff, Z.eqb_neq; lia|].
  xb; apply wp_dassert; [apply Z.leb_le; lia|].
  set (ml := (mx + 7) / 8). assert (Hml : 8 * ml - 7 <= mx <= 8 * ml). { unfold ml. pose proof (Z.div_mod (mx + 7) 8). pf (Z.mod_pos_bound (mx + 7) 8). lia. }
  xb; apply wp_dassert; [apply Z.leb_le; lia|].
  assert (Hnl : ct_mp_nlimbs ml <= zlen s).
  { pf (ct_mp_nlimbs_spec ml) as NS. assert (HH : ct_mp_nlimbs ml * LB < (zlen s + 1) * LB) by lia. apply Z.mul_lt_mono_pos_r in HH; lia. }
  xb; apply wp_dassert; [apply Z.leb_le; auto|].
  pf (p256_pos ml) as PM.
  xb; apply wp_clear_above; auto; [lia|]. intros rf (Orf & Srf & Vrf). pose proof (shape_len _ _ Srf) as Lrf.
  assert (Brf : 0 <= mpval rf < 256 ^ ml) by (rewrite Vrf; apply Z.mod_pos_bound; lia).
  xb; apply wp_shrink_to; auto; [lia|lia|]. intros r1 Or1 Kr1 Lr1 Vr1.
  assert (LL : forall b, ml <= mp_len b -> ml <= shrunk_len b ml <= mp_len b).
  { intros b Hb. unfold shrunk_len. rewrite Z.min_l by lia. destruct (supports_unaligned b) eqn:U; [lia|].
    unfold ct_mp_limbs_align_len. pf (ct_mp_nlimbs_spec ml) as NS. split; [lia|].
    destruct b as [l|l|l]; try discriminate. cbn [mp_len] in *.
    assert (HH : ct_mp_nlimbs ml * LB < (zlen l + 1) * LB) by lia. apply Z.mul_lt_mono_pos_r in HH; [|lia]. apply Z.mul_le_mono_nonneg_r; lia. }
  pose proof (LL rf ltac:(lia)) as LLr. rewrite <- Lr1 in LLr.
  assert (Lns : mp_len (NE s) = zlen s * LB) by reflexivity.
  xb; apply wp_clear_above; auto; [lia|]. intros tf (Otf & Stf & Vtf). pose proof (shape_len _ _ Stf) as Ltf.
  assert (Btf : 0 <= mpval tf < 256 ^ ml) by (rewrite Vtf; apply Z.mod_pos_bound; lia).
  xb; apply wp_shrink_to; auto; [lia|lia|]. intros t1 Ot1 Kt1 Lt1 Vt1.
  pose proof (LL tf ltac:(lia)) as LLt. rewrite <- Lt1 in LLt.
  xb; apply wp_clear_below; auto; [lia|right; right; lia|]. intros r2 (Or2 & Sr2 & Vr2). pose proof (shape_len _ _ Sr2) as Lr2.
  rewrite Vr1, (Z.mod_small (mpval rf)), Z.sub_diag in Vr2 by lia.
  assert (NL2 : 0 < nlimbs r2). { pose proof (nlimbs_spec r2). apply (mul_lt_cancel LB); lia. }
  pose proof (upinv_init r2 Or2) as UI. rewrite Vr2 in UI.
  xb. eapply wp_up_store; [exact UI|lia| |].
  { split; [lia|]. pf (lim_pos r2 0) as LP. destruct (Z.eq_dec (nlimbs r2) 1) as [E1|E1].
    - pose proof (lim_total r2) as LT. rewrite E1 in LT. change (1 - 1) with 0 in LT. rewrite Z.pow_0_r, Z.mul_1_l in LT. pf LT as LT'.
      assert (256 ^ 1 <= 256 ^ mp_len r2) by (apply Z.pow_le_mono_r; lia). lia.
    - rewrite lim_full; [lia|]. apply full_inner. lia. }
  intros r3 U3. destruct U3 as (Or3 & Sr3 & _ & Vr3). rewrite Z.div_0_l in Vr3 by (change (0 + 1) with 1; rewrite Z.pow_1_r; lia).
  rewrite Z.pow_0_r in Vr3. replace (0 + 1 * 1 + B ^ (0 + 1) * 0) with 1 in Vr3 by ring. pose proof (shape_len _ _ Sr3) as Lr3.
  apply wx_bindx. change 1 with (2 ^ Z.of_nat 0) at 1.
  assert (NT : nlimbs t1 = limbs_for_bits mx). { unfold nlimbs. rewrite Lt1. unfold shrunk_len.
    assert (KF : kind_of tf = KNE) by (destruct Stf as [-> _]; reflexivity). destruct tf as [l|l|l]; try discriminate. cbn [supports_unaligned].
    rewrite Z.min_l by lia. unfold ct_mp_limbs_align_len. pf (ct_mp_nlimbs_spec ml) as NS. clear - NS Hml HLB Hm.
    transitivity (ct_mp_nlimbs ml); [apply ct_mp_nlimbs_unique; lia|]. unfold limbs_for_bits. set (q := ct_mp_nlimbs ml) in *. clearbody q ml.
    assert (WE : W = 8 * LB) by (unfold W; reflexivity). rewrite WE.
    apply (Z.div_unique_pos _ _ q (mx + 8 * LB - 1 - 8 * LB * q)); lia. }
  apply wx_inv_loop; auto; try lia.
  - unfold lifting. rewrite NT. exact LF.
  - cbn [Z.of_nat]. rewrite Z2Nat.id by apply Z.log2_up_nonneg. rewrite Z.add_0_l.
    destruct (Z.eq_dec mx 1) as [->|N1]; [cbn; lia|]. apply Z.log2_up_spec. lia.
  - intros _. cbn [hensel]. rewrite Vr3. reflexivity.
  - intros r4 t2 k SQ Or4. rewrite NT in SQ. revert Or4. intros Or4 Sr4 Ot2 St2 Hk Vr4. pose proof (shape_len _ _ Sr4) as Lr4. pose proof (shape_len _ _ St2) as Lt2.
    assert (U8 : 16 * mp_len r < 2 ^ UW) by apply Hr.
    xb; apply wp_ct_clear_bits_above; [auto|lia|]. intros r5 (Or5 & Sr5 & Vr5). pose proof (shape_len _ _ Sr5) as Lr5.
    assert (E5 : mpval r5 = hensel (mpval x) k mod 2 ^ e). { rewrite Vr5. apply (mod_pow_le _ _ e mx 2); auto; lia. }
    xb; apply wp_dassert_m.
    { apply wp_mif; intros E; [apply wp_ret; auto|]. apply negb_false_iff, Z.eqb_eq in E. apply wp_bind, wp_is_zero_mp; auto. apply wp_ret.
      rewrite E5, E, Z.pow_0_r, Z.mod_1_r, lc_unwrap_chc. reflexivity. }
    assert (Kt2 : kind_of t2 = KNE). { destruct St2 as [-> _]. rewrite Kt1. destruct Stf as [-> _]. reflexivity. }
    destruct (unshrink_spec tf t2) as (OU & SU & _); auto. { destruct Stf as [-> _]. auto. } { lia. }
    assert (KU : kind_of (mp_unshrink tf t2) = KNE). { destruct SU as [-> _]. destruct Stf as [-> _]. reflexivity. }
    destruct (mp_unshrink tf t2) as [l|l|l] eqn:EU; try discriminate. cbn [limbs_of]. xb; apply wp_ret.
    xr.
    assert (KR : kind_of r5 = kind_of rf).
    { destruct Sr5 as [-> _], Sr4 as [-> _], Sr3 as [-> _], Sr2 as [-> _]. auto. }
    destruct (unshrink_spec rf r5) as (OV & SV & VV); auto; [lia|]. apply (HQ _ _ k); auto.
    + eapply shape_trans; eauto.
    + pose proof (shape_len _ _ SU) as LU. rewrite Ltf, Lns in LU. cbn [mp_len] in LU. apply Z.mul_cancel_r in LU; lia.
    + rewrite VV. rewrite Z.div_small; [lia|]. split; [lia|]. eapply Z.lt_le_trans; [apply Brf|]. apply Z.pow_le_mono_r; lia.
Qed.

Lemma wp_inv_pow2 : forall r x e mx s (Q : mp * list Z -> Prop), mp_ok r -> mp_ok x -> mp_ok (NE s) -> 0 < mp_len x ->
  0 <= e <= mx -> 0 < mx -> mx <= 8 * mp_len r -> mx <= 8 * (LB * zlen s) -> (e = 0 \/ Z.odd (mpval x) = true) -> liftable (mpval x) mx ->
  (forall r' s' k, mp_ok r' -> same_shape r r' -> mp_ok (NE s') -> zlen s' = zlen s -> mx <= 2 ^ Z.of_nat k ->
     mpval r' = hensel (mpval x) k mod 2 ^ e -> Q (r', s')) ->
  wp (ct_inv_mod_pow2_mp r x e mx s) Q.
Proof. intros. apply wp_wx. eapply wx_inv_pow2; eauto. Qed.

(** Lifting gives inverses. *)
Lemma hensel_inv : forall x k, Z.odd x = true -> (x * hensel x k) mod 2 ^ (2 ^ Z.of_nat k) = 1 mod 2 ^ (2 ^ Z.of_nat k).
Proof.
  intros x k HO. induction k as [|k IH].
  - cbn [hensel Z.of_nat]. change (2 ^ (2 ^ 0)) with 2. rewrite Z.mul_1_r, Zmod_odd, HO. reflexivity.
  - cbn [hensel]. assert (HK2 : 2 ^ Z.of_nat (S k) = 2 * 2 ^ Z.of_nat k) by (rewrite Nat2Z.inj_succ, Z.pow_succ_r by lia; reflexivity).
    rewrite HK2. set (K := 2 ^ Z.of_nat k) in *. assert (HK : 0 < K) by (apply pow2_gt0; lia).
    set (h := hensel x k) in *. pf (pow2_gt0 K) as PK. pf (pow2_gt0 (2 * K)) as PK2.
    rewrite Z.mul_mod_idemp_r by lia.
    assert (E : exists q, x * h = 1 + 2 ^ K * q).
    { exists (x * h / 2 ^ K - 1 / 2 ^ K). pose proof (Z.div_mod (x * h) (2 ^ K)). pose proof (Z.div_mod 1 (2 ^ K)). lia. }
    destruct E as [q E].
    replace (x * (2 * h - x * h ^ 2)) with (1 - (x * h - 1) * (x * h - 1)) by ring.
    replace (x * h - 1) with (2 ^ K * q) by lia.
    replace (1 - 2 ^ K * q * (2 ^ K * q)) with (1 + (- q * q) * 2 ^ (2 * K)).
    + apply Z.mod_add. lia.
    + replace (2 * K) with (K + K) by lia. rewrite Z.pow_add_r by lia. ring.
Qed.

Lemma hensel_inv_mod : forall x k e, Z.odd x = true -> 0 <= e <= 2 ^ Z.of_nat k -> is_inverse (2 ^ e) x (hensel x k mod 2 ^ e).
Proof.
  intros x k e HO He. pf (pow2_gt0 e) as PE. split; [apply Z.mod_pos_bound; lia|].
  rewrite Z.mul_mod_idemp_r by lia. apply (mod_pow_le _ _ e (2 ^ Z.of_nat k) 2); [lia|lia|]. apply hensel_inv; auto.
Qed.

Lemma inverse_unique : forall n x v w, 0 < n -> is_inverse n x v -> is_inverse n x w -> v = w.
Proof.
  intros n x v w Hn [Hv Ev] [Hw Ew]. rewrite <- (Z.mod_small v n), <- (Z.mod_small w n) by lia.
  assert (E : (v * (x * w)) mod n = v mod n) by (rewrite Z.mul_mod, Ew, <- Z.mul_mod, Z.mul_1_r by lia; reflexivity).
  assert (E2 : (w * (x * v)) mod n = w mod n) by (rewrite Z.mul_mod, Ev, <- Z.mul_mod, Z.mul_1_r by lia; reflexivity).
  rewrite <- E, <- E2. f_equal. ring.
Qed.

Lemma liftable_small : forall x e, e <= 2 * W -> liftable x e.
Proof.
  intros x e He k Hk. apply small_ok. pose proof (hensel_range x k) as HR. split; [lia|].
  eapply Z.lt_le_trans; [apply HR|]. unfold B. apply Z.pow_le_mono_r; [lia|].
  destruct W_pow2 as (j & Ej & _). assert (HL : 2 ^ Z.of_nat k < 2 ^ (Z.of_nat j + 1)) by (rewrite Z.pow_add_r by lia; lia).
  apply Z.pow_lt_mono_r_iff in HL; [|lia|lia]. rewrite Ej. apply Z.pow_le_mono_r; lia.
Qed.

End Facts.
