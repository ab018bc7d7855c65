(** Facts about euclid_impl.rs (ModelEuclid.v): inversion modulo odd numbers. *)
From Coq Require Import ZArith List Bool Lia Znumtheory.
Require Import Verif.Spec Verif.Base Verif.Monad Verif.Wp Verif.ModelLimb Verif.LimbFacts Verif.LimbFacts2
  Verif.ModelBuf Verif.SpecBuf Verif.BufFacts Verif.BufFacts2 Verif.BufFacts3 Verif.UpFacts Verif.ModelCmp Verif.CmpFacts
  Verif.ModelAdd Verif.AddFacts Verif.AddFacts2 Verif.ModelMont Verif.SpecMont Verif.MontFacts Verif.MontFacts5 Verif.MontFacts6
  Verif.SpecEuclid Verif.ModelEuclid Verif.GcdBound Verif.SpecSteps Verif.EuclidFacts Verif.EuclidFacts2 Verif.EuclidFacts3 Verif.EuclidFacts4
  Verif.InvOddFacts Verif.InvOddFacts2 Verif.InvOddFacts3.
Import ListNotations.
Open Scope Z_scope.

Section Facts.
Context {c : cfg}.

(** Views of the first [mp_len n] bytes. *)
Lemma wp_shrink_view : forall r rf n (Q : mp -> Prop), mp_ok r -> mp_ok n -> len_compat n (mp_len r) -> mp_ok rf -> same_shape r rf -> mpval rf < 256 ^ mp_len n ->
  (forall r0, mp_ok r0 -> kind_of r0 = kind_of r -> nlimbs r0 = nlimbs n -> mpval n < 256 ^ mp_len r0 -> mpval r0 = mpval rf ->
     (forall r1, mp_ok r1 -> same_shape r0 r1 -> becomes r (mp_unshrink rf r1) (mpval r1)) -> Q r0) ->
  wp (mp_shrink_to rf (mp_len n)) Q.
Proof.
  intros r rf n Q Hr Hn HC Of Sf Ef HQ. pose proof (mp_len_nonneg r) as Lr. pose proof (mp_len_nonneg n) as Ln. pose proof (mpval_bound rf Of) as Bf.
  apply wp_shrink_to; [auto|lia|auto|]. intros r0 O0 K0 L0 E0.
  assert (SE : shrunk_len rf (mp_len n) = shrunk_len r (mp_len n)).
  { unfold shrunk_len. rewrite (shape_len _ _ Sf). destruct Sf as [KK _]. destruct r, rf; try discriminate; auto. }
  rewrite SE in L0. destruct (shrunk_n r n Hn HC) as (SN & SL & _). destruct (compat_nlimbs n (mp_len r) Hn Lr HC) as [NN NV].
  apply HQ; auto.
  - destruct Sf as [<- _]. auto.
  - unfold nlimbs at 1. rewrite L0. auto.
  - rewrite L0. apply shrunk_pow; auto. apply mpval_bound; auto.
  - intros r1 O1 S1. destruct (unshrink_spec rf r1) as (O4 & S4 & E4); auto.
    { destruct S1 as [-> _]. auto. } { rewrite (shape_len _ _ S1), (shape_len _ _ Sf). lia. }
    split; [auto|]. split; [eapply shape_trans; eauto|]. rewrite E4. rewrite Z.div_small; [lia|].
    pose proof (mpval_bound r0 O0) as B0. rewrite E0 in B0. rewrite (shape_len _ _ S1). lia.
Qed.

(** Is the greatest common divisor one? *)
Lemma wp_gcd_not_one : forall k i f e m (Q : bool -> Prop), mp_ok f -> 0 <= i -> (forall j, i <= j < i + Z.of_nat k -> (j + 1) * LB <= mp_len f) ->
  (forall r : bool, (r = false <-> forall j, i <= j < i + Z.of_nat k -> limb f j = if j =? i then e else m) -> Q r) -> wp (gcd_not_one k i f e m) Q.
Proof.
  induction k as [|k IH]; intros i f e m Q Of Hi HF HQ; cbn [gcd_not_one].
  - apply wp_ret. apply HQ. split; [intros _ j Hj; lia|auto].
  - apply wp_bind, wp_load_full; [auto|auto|apply HF; lia|]. apply wp_mif; intros E; [apply negb_true_iff, Z.eqb_neq in E|apply negb_false_iff, Z.eqb_eq in E].
    + apply wp_ret. apply HQ. split; [discriminate|]. intros H. exfalso. apply E. rewrite H by lia. rewrite Z.eqb_refl. auto.
    + apply IH; [auto|lia|intros j Hj; apply HF; lia|]. intros r Hr. apply HQ. rewrite Hr. split; intros H j Hj.
      * destruct (Z.eqb_spec j i) as [->|N]; [auto|]. rewrite H by lia. destruct (j =? i + 1); auto.
      * rewrite H by lia. destruct (Z.eqb_spec j i) as [->|N]; [lia|]. destruct (j =? i + 1); auto.
Qed.

Lemma vlimb_eq_all : forall k a b, (forall j, 0 <= j < Z.of_nat k -> vlimb a j = vlimb b j) -> a mod B ^ Z.of_nat k = b mod B ^ Z.of_nat k.
Proof.
  induction k as [|k IH]; intros a b H; [cbn; rewrite !Z.mod_1_r; auto|].
  replace (Z.of_nat (S k)) with (Z.of_nat k + 1) by lia. rewrite !vmod_S by lia. rewrite (IH a b), (H (Z.of_nat k)); [auto|lia|intros; apply H; lia].
Qed.

Lemma ones_limb : forall n j, 0 <= j < n -> vlimb (B ^ n - 1) j = B - 1.
Proof.
  intros n j Hj. unfold vlimb. pose proof B_gt. pose proof (Bpow_pos j). assert (E : B ^ n = B * B ^ (n - j - 1) * B ^ j).
  { rewrite <- Z.pow_succ_r, <- Z.pow_add_r by lia. f_equal. lia. }
  pose proof (Bpow_pos (n - j - 1)). rewrite (div_eq_of (B ^ n - 1) (B ^ j) (B * B ^ (n - j - 1) - 1) (B ^ j - 1)) by (rewrite ?E; lia).
  apply (mod_eq_of _ _ (B ^ (n - j - 1) - 1)); lia.
Qed.
Lemma one_limb : forall j, 0 <= j -> vlimb 1 j = if j =? 0 then 1 else 0.
Proof.
  intros j Hj. pose proof B_gt. destruct (Z.eqb_spec j 0) as [->|N]; unfold vlimb.
  - rewrite Z.pow_0_r, Z.div_1_r. apply Z.mod_small. lia.
  - rewrite Z.div_small; [apply Z.mod_0_l; lia|]. assert (B ^ 1 <= B ^ j) by (apply Z.pow_le_mono_r; lia). rewrite Z.pow_1_r in *. lia.
Qed.

Lemma wp_gcd_check : forall f Ff n (Q : bool -> Prop), mp_ok f -> nlimbs f = n -> 0 < n -> (forall j, 0 <= j < n -> (j + 1) * LB <= mp_len f) ->
  mpval f = Ff mod B ^ n -> - B ^ n < Ff < B ^ n -> Ff <> 0 ->
  Q (negb (Z.abs Ff =? 1)) ->
  wp (gcd_not_one (Z.to_nat n) 0 f (lc_select (chc (Ff <? 0)) 1 (lnot 0)) (lc_select (chc (Ff <? 0)) 0 (lnot 0))) Q.
Proof.
  intros f Ff n Q Of Nf Hn HF EV HR H0 HQ. pose proof isl_0 as I0. pose proof isl_1 as I1. rewrite lc_mask, lc_select_chc by (auto; apply isl_lnot; auto). rewrite lnot_0.
  apply wp_gcd_not_one; [auto|lia|intros; apply HF; lia|]. intros r Hr. pose proof B_gt. pose proof (Bpow_pos n).
  assert (E : r = negb (mpval f =? (if Ff <? 0 then B ^ n - 1 else 1))); [|].
  { assert (TL : forall j, 0 <= j < n -> vlimb (if Ff <? 0 then B ^ n - 1 else 1) j = if j =? 0 then (if Ff <? 0 then B - 1 else 1) else chc (Ff <? 0)).
    { intros j Hj. destruct (Ff <? 0); [rewrite ones_limb by auto; destruct (j =? 0); auto|]. rewrite one_limb by lia. destruct (j =? 0); auto. }
    rewrite Z2Nat.id in Hr by lia.
    assert (T1 : 0 <= (if Ff <? 0 then B ^ n - 1 else 1) < B ^ n). { assert (B ^ 1 <= B ^ n) by (apply Z.pow_le_mono_r; lia). rewrite Z.pow_1_r in *. destruct (Ff <? 0); lia. }
    set (T := if Ff <? 0 then B ^ n - 1 else 1) in *. pose proof (mpval_bound_B f Of) as BF. rewrite Nf in BF.
    destruct (Z.eqb_spec (mpval f) T) as [E|E]; cbn [negb].
    - apply Hr. intros j Hj. rewrite limb_vlimb, E. apply TL. lia.
    - destruct r; [auto|]. exfalso. apply E. pose proof (vlimb_eq_all (Z.to_nat n) (mpval f) T) as V. rewrite Z2Nat.id, !Z.mod_small in V by lia. apply V.
      intros j Hj. rewrite TL by lia. rewrite <- limb_vlimb. apply Hr; [auto|lia]. }
  rewrite E, EV. assert (E2 : (Ff mod B ^ n =? (if Ff <? 0 then B ^ n - 1 else 1)) = (Z.abs Ff =? 1)); [|rewrite E2; auto].
  destruct (Z.ltb_spec Ff 0).
  - rewrite <- (Z.mod_add Ff 1), Z.mod_small by lia. destruct (Z.eqb_spec (Ff + 1 * B ^ n) (B ^ n - 1)), (Z.eqb_spec (Z.abs Ff) 1); auto; lia.
  - rewrite Z.mod_small by lia. destruct (Z.eqb_spec Ff 1), (Z.eqb_spec (Z.abs Ff) 1); auto; lia.
Qed.

(** The final conditional negation modulo n. *)
Definition final_neg_body (n : mp) (neg_mask i : Z) (st : mp * Z * Z) : M (mp * Z * Z) :=
  let '(result, neg_carry, carry) := st in
      let! result_val := load_l result i in
      let! '(neg_carry, cond_neg_result_val) := ct_add_l_l (Z.lxor result_val neg_mask) neg_carry in
      let! nv := load_l n i in
      let cond_f_val := Z.land nv neg_mask in
      let! '(carry, result_val) := ct_add_l_l_c cond_f_val cond_neg_result_val carry in
      let! result := store_high_masked result i result_val in
      ret (result, neg_carry, carry).
Lemma wp_final_neg : forall r n (z : bool) (Q : mp * Z * Z -> Prop), mp_ok r -> mp_ok n -> nlimbs r = nlimbs n -> 0 < nlimbs n -> mpval n < 256 ^ mp_len r -> mpval r <= mpval n ->
  (forall r' x y, becomes r r' (if z then mpval n - mpval r else mpval r) -> Q (r', x, y)) ->
  wp (zfor 0 (nlimbs n) (final_neg_body n (chc z)) (r, b2z z, 0)) Q.
Proof.
  intros u n g Q Ou On NN Hn LN LU HQ. unfold final_neg_body. set (U := mpval u) in *. set (N := mpval n) in *. pose proof (mpval_nonneg u Ou) as U0. fold U in U0.
  pose proof (p256_pos (mp_len u) (mp_len_nonneg u)) as PL. pose proof isl_0 as I0. pose proof isl_1 as I1.
  apply wp_for with (I := fun i '(u', nc, cy) => exists S, upinv u U i (S mod 256 ^ mp_len u) u' /\ 0 <= S < B ^ i /\ (cy = 0 \/ cy = 1) /\ (nc = 0 \/ nc = 1) /\
     exists NV, 0 <= NV < B ^ i /\ NV + B ^ i * nc = (if g then B ^ i - U mod B ^ i else U mod B ^ i) /\ S + B ^ i * cy = (if g then N mod B ^ i else 0) + NV); [lia| | |].
  - exists 0. rewrite Z.mod_0_l by lia. split; [apply upinv_init; auto|]. split; [rewrite Z.pow_0_r; lia|]. split; [auto|]. split; [destruct g; auto|].
    exists 0. rewrite Z.pow_0_r, !Z.mod_1_r. split; [lia|]. split; [destruct g; cbn; lia|destruct g; lia].
  - intros i [[u' nc] cy] Hi (S & UI & HS & Hcy & Hnc & NV & HNV & ENV & ES). pose proof (Bpow_pos i) as Pi. pose proof B_gt as BG.
    apply wp_bind. eapply wp_up_load; [exact UI|lia|lia|]. pose proof (vlimb_isl N i) as IN. pose proof (vlimb_isl U i) as IU.
    rewrite lxor_chc by auto. set (nx := if g then B - 1 - vlimb U i else vlimb U i).
    assert (Inx : isl nx) by (unfold nx, isl in *; destruct g; lia).
    apply wp_bind, wp_add_l; [auto|destruct Hnc as [->| ->]; auto|]. intros nc' nv Hnc' Inv E1.
    apply wp_bind, wp_load; [auto|lia|]. rewrite limb_vlimb. fold N. rewrite land_chc_r by auto.
    apply wp_bind, wp_add_c; [destruct g; auto|auto|lia|]. intros cy' v Hcy' Iv E2.
    assert (SL : S mod 256 ^ mp_len u = S).
    { apply Z.mod_small. assert (B ^ i <= 256 ^ mp_len u); [|lia]. destruct (Z.eq_dec i 0) as [->|]; [rewrite Z.pow_0_r; lia|].
      rewrite Bpow256 by lia. apply Z.pow_le_mono_r; [lia|]. pose proof (full_inner u (i - 1)). replace (i - 1 + 1) with i in * by lia. lia. }
    rewrite SL in UI. apply wp_bind. eapply wp_up_high_masked; [exact UI|lia|auto|]. intros u2 U2. apply wp_ret.
    exists (S + v * B ^ i). split; [exact U2|]. unfold isl in *. split. { rewrite Bpow_S by lia. pf (mul_nn v (B ^ i)). pf (mul_le_l (B ^ i) v (B - 1)). lia. }
    split; [auto|]. split; [auto|]. exists (NV + nv * B ^ i). split. { rewrite Bpow_S by lia. pf (mul_nn nv (B ^ i)). pf (mul_le_l (B ^ i) nv (B - 1)). lia. }
    rewrite !vmod_S, Bpow_S by lia. set (Pi' := B ^ i) in *. split.
    + transitivity (NV + Pi' * (nv + B * nc')); [ring|]. rewrite <- E1. transitivity (NV + Pi' * nc + Pi' * nx); [ring|]. rewrite ENV. unfold nx. destruct g; ring.
    + transitivity (S + Pi' * (v + B * cy')); [ring|]. rewrite <- E2. transitivity (S + Pi' * cy + Pi' * ((if g then vlimb N i else 0) + nv)); [ring|].
      rewrite ES. destruct g; ring.
  - intros [[u' nc] cy] (S & UI & HS & Hcy & Hnc & NV & HNV & ENV & ES). apply HQ.
    assert (EQ : S mod 256 ^ mp_len u = if g then N - U else U).
    { pose proof (mpval_bound_B u Ou) as BU. pose proof (mpval_bound_B n On) as BN. rewrite NN in BU. fold U in BU. fold N in BN. rewrite (Z.mod_small U), (Z.mod_small N) in * by auto.
      rewrite <- (Z.mod_small (if g then N - U else U) (256 ^ mp_len u)) by (destruct g; lia).
      rewrite <- (mod_len u (if g then N - U else U)), NN by lia. f_equal. symmetry. apply (mod_eq_of _ _ (if g then cy + nc - 1 else cy + nc)); [auto|].
      destruct g; lia. }
    rewrite <- EQ. apply upinv_done with (i := nlimbs n); [auto|exact UI|lia].
Qed.

(** What the residues satisfy all along. *)
Definition Jinv (r0 u0 : mp) (N x p : Z) (i : Z) (st : mp * mp) : Prop :=
  let '(r, u) := st in
  mp_ok r /\ mp_ok u /\ same_shape r0 r /\ same_shape u0 u /\ mpval r < N /\ mpval u < N /\
  (mpval r, mpval u) = residues N p x (Z.to_nat i).

Lemma odd_pow2_coprime : forall N s, 0 <= s -> Z.odd N = true -> rel_prime N (2 ^ s).
Proof.
  intros N s Hs HO. apply rel_prime_sym. apply rel_prime_sym. apply Zpow_facts.rel_prime_Zpower_r; [auto|]. apply rel_prime_sym, prime_rel_prime; [apply prime_2|].
  intros D. apply Zmod_divide_iff in D || idtac. rewrite Zodd_bool_iff in HO. apply Z.odd_spec in HO || idtac. destruct D as [q E]. rewrite E in HO. rewrite Zodd_ex_iff in HO. destruct HO as [k Hk]. lia.
Qed.

Lemma cong_step : forall N x s a b F G F1 X Y V q, Z.odd N = true -> 0 <= s -> 2 ^ s * F1 = a * F + b * G -> 2 ^ s * V = a * X + b * Y + q * N ->
  (N | F - X * x) -> (N | G - Y * x) -> (N | F1 - V * x).
Proof.
  intros N x s a b F G F1 X Y V q HO Hs E1 E2 [u Hu] [v Hv]. apply Gauss with (b := 2 ^ s); [|apply odd_pow2_coprime; auto].
  exists (a * u + b * v - q * x). rewrite Z.mul_sub_distr_l, Z.mul_assoc, E1, E2.
  transitivity (a * (F - X * x) + b * (G - Y * x) - q * N * x); [ring|]. rewrite Hu, Hv. ring.
Qed.

Lemma keeps_J : forall r0 u0 n x g, mp_ok n -> Z.odd (mpval n) = true -> 0 < nlimbs n -> nlimbs r0 = nlimbs n -> nlimbs u0 = nlimbs n ->
  mpval n < 256 ^ mp_len r0 -> mpval n < 256 ^ mp_len u0 -> neg_inv n g ->
  keeps_at (Jinv r0 u0 (mpval n) x (nlimbs n - 1)) (fun t masks '(result, u1) => apply_to_mod_odd_n t masks result u1 n g) (mpval n) x.
Proof.
  intros r0 u0 n x g On HO Hn Nr Nu Lr Lu [Hg HI] i d a b s0 e h F G d1 F1 G1 [r u] Hi EB SR Hs0 [R0 A0] [R1 A1] (Or & Ou & Sr & Su & Vr & Vu & HC).
  assert (WP : 0 <= W - 2 <= W - 2) by (destruct W_cases; lia).
  assert (GI : lwmul (vlimb (mpval n) 0) g = B - 1).
  { unfold lwmul, vlimb. rewrite Z.pow_0_r, Z.div_1_r, Z.mul_mod_idemp_l by (pose proof B_gt; lia). pose proof B_gt.
    assert (E : (mpval n * g + 1) mod B = 0) by auto. apply Z.div_exact in E; [|lia]. apply (mod_eq_of _ _ ((mpval n * g + 1) / B - 1)); lia. }
  apply wp_apply_mod; auto; try (rewrite (shape_nlimbs r0 r) || rewrite (shape_nlimbs u0 u); auto); try (rewrite (shape_len r0 r) || rewrite (shape_len u0 u); auto).
  intros r' u' (Or' & Sr' & Vr' & Cr') (Ou' & Su' & Vu' & Cu'). split; [auto|]. split; [auto|]. split; [eapply shape_trans; eauto|]. split; [eapply shape_trans; eauto|].
  split; [auto|]. split; [auto|]. replace (Z.to_nat (i + 1)) with (S (Z.to_nat i)) by lia. cbn [residues]. rewrite <- HC, EB, SR, Cr', Cu'. auto.
Qed.

(** Conditions under which all residues fit. *)
Lemma row_fits_norm : forall n p a b s r u, 0 <= p -> 0 <= s -> 0 <= r < n -> 0 <= u < n -> Z.abs a + Z.abs b <= 2 ^ s -> 2 * n <= B ^ (p + 1) ->
  n <= 2 ^ s * B ^ p -> row_fits n p (a, b, s) r u.
Proof.
  intros n p a b s r u Hp Hs Hr Hu HA HN HG V m Hm EV. pose proof (comb_abs a b s r u n Hs HA Hr Hu) as HC. pose proof (pow2_gt0 s Hs) as PS.
  set (U := a * r + b * u) in *. clearbody U. pf (mul_le_l n 0 m). pf (mul_le_l n m (2 ^ s - 1)).
  assert (V1 : - n < V). { apply (mul_lt_cancel (2 ^ s)); [lia|]. rewrite EV. lia. }
  assert (V2 : V < 2 * n). { apply (mul_lt_cancel (2 ^ s)); [lia|]. rewrite EV. lia. }
  lia.
Qed.

Lemma row_fits_id : forall n p a b r u, 0 <= p -> 0 <= r < n -> 0 <= u < n -> n <= B ^ (p + 1) -> (a = 1 /\ b = 0) \/ (a = 0 /\ b = 1) -> row_fits n p (a, b, 0) r u.
Proof.
  intros n p a b r u Hp Hr Hu HN HA V m Hm EV. rewrite Z.pow_0_r in *. pose proof (Bpow_pos p Hp). assert (m = 0) by lia. subst m.
  destruct HA as [[-> ->]|[-> ->]]; lia.
Qed.

Lemma steps_rows_inv : forall k s, let '(_, (a, b, s0), (e, h, t)) := steps_rows k s in
  t = Z.of_nat k /\ 0 <= s0 <= t /\ Z.abs a + Z.abs b <= 2 ^ s0 /\ Z.abs e + Z.abs h <= 2 ^ t /\ (s0 = 0 -> (a = 1 /\ b = 0) \/ (a = 0 /\ b = 1)) /\
  (t = 0 -> e = 0 /\ h = 1).
Proof.
  induction k as [|k IH]; intros s; [cbn; lia|]. cbn [steps_rows]. specialize (IH s). destruct (steps_rows k s) as [[[[d f] g] [[a b] s0]] [[e h] t]].
  destruct IH as (Et & Hs & A0 & A1 & I0 & I1). unfold step_rows. cbv zeta.
  set (w := (0 <? d) && Z.odd g). set (m := if w then -1 else if Z.odd g then 1 else 0). assert (Hm : Z.abs m <= 1) by (subst m; destruct w; [|destruct (Z.odd g)]; cbn; lia).
  assert (NE : Z.abs (e + 2 ^ (t - s0) * m * a) + Z.abs (h + 2 ^ (t - s0) * m * b) <= 2 ^ (t + 1)).
  { rewrite Z.pow_add_r by lia. change (2 ^ 1) with 2. rewrite (Z.mul_comm (2 ^ t) 2). apply abs_comb; [auto|]. pose proof (pow2_gt0 (t - s0)) as P.
    rewrite !Z.abs_mul, (Z.abs_eq (2 ^ _)) by lia. rewrite <- Z.mul_add_distr_l.
    assert (E : 2 ^ t = 2 ^ (t - s0) * 2 ^ s0) by (rewrite <- Z.pow_add_r by lia; f_equal; lia). rewrite E.
    rewrite <- Z.mul_assoc. apply mul_le_l; [lia|]. pose proof (Z.abs_nonneg m). pose proof (Z.abs_nonneg a). pose proof (Z.abs_nonneg b).
    pf (mul_le_l (Z.abs a + Z.abs b) (Z.abs m) 1). lia. }
  assert (NT : t + 1 = Z.of_nat (S k)) by (clear - Et; lia). assert (TP : 0 <= t) by (clear - Et; lia). assert (T1 : t + 1 = 0 -> e + 2 ^ (t - s0) * m * a = 0 /\ h + 2 ^ (t - s0) * m * b = 1) by (clear - TP; intros; exfalso; lia).
  destruct w.
  - split; [auto|]. split; [clear - TP; lia|]. split; [auto|]. split; [auto|]. split; [intros T0; right; apply I1; auto|auto].
  - split; [auto|]. split; [clear - Hs; lia|]. split; [auto|]. split; [auto|]. split; [auto|auto].
Qed.

(** The numbers [residues] computes. *)
Lemma read_back_range : forall n p s V, 0 <= p -> 0 <= s -> 0 < n < B ^ (p + 1) -> - n < V < 2 * n -> 0 <= read_back n p s V < n.
Proof.
  intros n p s V Hp Hs Hn HV. unfold read_back. pose proof (Bpow_pos p Hp) as PP. pose proof (pow2_gt0 s Hs) as PS. pf (Z.mul_pos_pos (2 ^ s) (B ^ p)) as PM.
  set (P1 := B ^ (p + 1)) in *. set (P := 2 ^ s * B ^ p) in *. clearbody P. destruct (Z.ltb_spec V 0) as [L|G].
  - pf (Z.mod_pos_bound V P). assert (V <= V mod P - P); [|lia]. pose proof (Z.div_mod V P). assert (V / P < 0) by (apply Z.div_lt_upper_bound; lia). pf (mul_le_l P (V / P) (-1)). lia.
  - cbv zeta. pf (Z.mod_pos_bound V P1). assert (V mod P1 = V \/ V mod P1 <= V - P1).
    { destruct (Z.lt_ge_cases V P1) as [LT|GE]; [left; apply Z.mod_small; lia|right]. pose proof (Z.div_mod V P1). assert (1 <= V / P1) by (apply Z.div_le_lower_bound; lia). pf (mul_le_l P1 1 (V / P1)). lia. }
    destruct (Z.leb_spec n (V mod P1)); lia.
Qed.
Lemma row_residue_range : forall n p a b s r u, 0 <= p -> 0 <= s -> Z.odd n = true -> 0 < n < B ^ (p + 1) -> Z.abs a + Z.abs b <= 2 ^ s -> 0 <= r < n -> 0 <= u < n ->
  0 <= row_residue n p (a, b, s) r u < n.
Proof.
  intros n p a b s r u Hp Hs HO Hn HA Hr Hu. unfold row_residue. apply read_back_range; auto. destruct (halved_spec (Z.to_nat s) n (a * r + b * u) HO) as (m & Hm & E).
  rewrite Z2Nat.id in * by auto. pf (comb_abs a b s r u n) as CA. apply (row_V s (a * r + b * u) n m); auto; lia.
Qed.
Lemma row_residue_fits : forall n p a b s r u, 0 <= p -> 0 <= s -> Z.odd n = true -> row_fits n p (a, b, s) r u ->
  exists q, 2 ^ s * row_residue n p (a, b, s) r u = a * r + b * u + q * n.
Proof.
  intros n p a b s r u Hp Hs HO HF. unfold row_residue. destruct (halved_spec (Z.to_nat s) n (a * r + b * u) HO) as (m & Hm & E).
  rewrite Z2Nat.id in * by auto. set (V := halved n (a * r + b * u) (Z.to_nat s)) in *. clearbody V. destruct (HF V m Hm E) as [F1 F2].
  assert (EQ : exists q, read_back n p s V = V + q * n).
  { unfold read_back. destruct (Z.ltb_spec V 0) as [L|G]; cbv zeta.
    - exists 1. rewrite <- (Z.mod_add V 1), Z.mod_small by lia. ring.
    - rewrite (Z.mod_small V) by lia. destruct (n <=? V); [exists (-1)|exists 0]; ring. }
  destruct EQ as [q ->]. exists (m + 2 ^ s * q). rewrite Z.mul_add_distr_l, E. ring.
Qed.
Lemma steps_rows_comb : forall k d F G, Z.odd F = true -> let '((_, f, g), (a, b, s), (e, h, t)) := steps_rows k (d, F, G) in
  Z.odd f = true /\ 0 <= s <= t /\ 2 ^ s * f = a * F + b * G /\ 2 ^ t * g = e * F + h * G.
Proof.
  induction k as [|k IH]; intros d F G HO; [cbn [steps_rows]; rewrite Z.pow_0_r; split; [auto|lia]|]. cbn [steps_rows]. specialize (IH d F G HO).
  destruct (steps_rows k (d, F, G)) as [[[[d1 f] g] [[a b] s]] [[e h] t]]. destruct IH as (Of & Hs & E0 & E1). unfold step_rows. cbv zeta.
  set (w := (0 <? d1) && Z.odd g). set (m := if w then -1 else if Z.odd g then 1 else 0).
  assert (HG : g + m * f = 2 * ((g + m * f) / 2)).
  { apply Z.div_exact; [lia|]. rewrite Zmod_odd. assert (OM : Z.odd (g + m * f) = false); [|rewrite OM; auto]. rewrite Z.odd_add, Z.odd_mul, Of.
    unfold m, w. destruct (Z.odd g); [destruct (0 <? d1); auto|rewrite andb_false_r; auto]. }
  set (G' := (g + m * f) / 2) in *. clearbody G'.
  assert (EP : 2 ^ t = 2 ^ (t - s) * 2 ^ s) by (rewrite <- Z.pow_add_r by lia; f_equal; lia).
  assert (EG : 2 ^ (t + 1) * G' = (e + 2 ^ (t - s) * m * a) * F + (h + 2 ^ (t - s) * m * b) * G).
  { rewrite Z.pow_add_r by lia. change (2 ^ 1) with 2. transitivity (2 ^ t * (2 * G')); [ring|]. rewrite <- HG, Z.mul_add_distr_l, E1, EP.
    transitivity (e * F + h * G + 2 ^ (t - s) * m * (2 ^ s * f)); [ring|]. rewrite E0. ring. }
  clear EP HG. destruct w eqn:EW; (split; [|split; [lia|split; auto]]); auto. unfold w in EW. apply andb_true_iff in EW. tauto.
Qed.
Lemma batches_odd : forall n x k, Z.odd n = true -> let '(_, f, _) := batches k (1, n, x) in Z.odd f = true.
Proof.
  intros n x k HO. induction k as [|k IH]; [auto|]. cbn [batches]. destruct (batches k (1, n, x)) as [[d f] g]. pose proof (steps_rows_comb (Z.to_nat (W - 2)) d f g IH) as H.
  destruct (steps_rows (Z.to_nat (W - 2)) (d, f, g)) as [[[[d1 f1] g1] [[a b] s]] [[e h] t]]. cbn [fst]. tauto.
Qed.
Lemma residues_range : forall n p x k, 0 <= p -> Z.odd n = true -> 0 < n < B ^ (p + 1) -> 0 <= fst (residues n p x k) < n /\ 0 <= snd (residues n p x k) < n.
Proof.
  intros n p x k Hp HO Hn. induction k as [|k IH]; cbn [residues]; [cbn [fst snd]; split; [lia|apply Z.mod_pos_bound; lia]|].
  destruct (residues n p x k) as [r u]. cbn [fst snd] in IH. destruct IH as [Hr Hu]. pose proof (steps_rows_inv (Z.to_nat (W - 2)) (batches k (1, n, x))) as HI.
  destruct (steps_rows (Z.to_nat (W - 2)) (batches k (1, n, x))) as [[st [[a b] s]] [[e h] t]]. destruct HI as (Et & Hs & A0 & A1 & _).
  cbn [fst snd]. split; apply row_residue_range; auto; clear - Hs; lia.
Qed.
Lemma residues_cong : forall n p x k, 0 <= p -> Z.odd n = true -> 0 < n < B ^ (p + 1) -> residues_fit n p x ->
  let '(_, f, g) := batches k (1, n, x) in (n | f - fst (residues n p x k) * x) /\ (n | g - snd (residues n p x k) * x).
Proof.
  intros n p x k Hp HO Hn HF. induction k as [|k IH].
  - cbn [batches residues fst snd]. split; [exists 1; lia|]. exists (x * (1 / n)). rewrite Z.mod_eq by lia. ring.
  - pose proof (residues_range n p x k Hp HO Hn) as HR. cbn [batches residues]. destruct (residues n p x k) as [r u]. cbn [fst snd] in IH, HR. destruct HR as [Hr Hu].
    pose proof (HF k r u Hr Hu) as HFk. pose proof (batches_odd n x k HO) as OF. destruct (batches k (1, n, x)) as [[d f] g]. destruct IH as [D0 D1].
    pose proof (steps_rows_inv (Z.to_nat (W - 2)) (d, f, g)) as HI. pose proof (steps_rows_comb (Z.to_nat (W - 2)) d f g OF) as HC.
    destruct (steps_rows (Z.to_nat (W - 2)) (d, f, g)) as [[[[d1 f1] g1] [[a b] s]] [[e h] t]]. destruct HI as (Et & Hs & _). destruct HC as (_ & _ & C0 & C1).
    destruct (HFk D0 D1) as [F0 F1]. assert (S0 : 0 <= s) by (clear - Hs; lia). assert (T0 : 0 <= t) by (clear - Hs; lia). cbn [fst snd].
    destruct (row_residue_fits n p a b s r u Hp S0 HO F0) as [q0 E0]. destruct (row_residue_fits n p e h t r u Hp T0 HO F1) as [q1 E1].
    split; [eapply cong_step with (s := s)|eapply cong_step with (s := t)]; eauto.
Qed.

Lemma zero_rows : forall k d f, steps_rows k (d, f, 0) = ((d + Z.of_nat k, f, 0), (1, 0, 0), (0, 1, Z.of_nat k)).
Proof.
  induction k as [|k IH]; intros d f; [cbn; rewrite Z.add_0_r; auto|]. cbn [steps_rows]. rewrite IH. unfold step_rows. cbn [Z.odd]. rewrite andb_false_r.
  cbv zeta. replace (Z.of_nat (S k)) with (Z.of_nat k + 1) by lia. replace (1 + (d + Z.of_nat k)) with (d + (Z.of_nat k + 1)) by lia.
  rewrite Z.mul_0_r, !Z.mul_0_l, !Z.add_0_r. auto.
Qed.

(** Once the second number is zero, later batches change nothing that matters. *)
Lemma residues_stop : forall n p x k d f j, 0 <= p -> Z.odd n = true -> 0 < n < B ^ (p + 1) -> batches k (1, n, x) = (d, f, 0) ->
  (exists d', batches (k + j) (1, n, x) = (d', f, 0)) /\ fst (residues n p x (k + j)) = fst (residues n p x k).
Proof.
  intros n p x k d f j Hp HO Hn EB. induction j as [|j [[d' IB] IR]]; [rewrite Nat.add_0_r; eauto|]. rewrite Nat.add_succ_r. cbn [batches residues].
  pose proof (residues_range n p x (k + j) Hp HO Hn) as [Hr _]. destruct (residues n p x (k + j)) as [r u]. cbn [fst] in *. rewrite IB, zero_rows. cbn [fst]. split; [eauto|].
  rewrite <- IR. unfold row_residue, read_back. cbn [Z.to_nat halved]. replace (1 * r + 0 * u) with r by ring. destruct (Z.ltb_spec r 0); [lia|]. cbv zeta.
  rewrite Z.mod_small by lia. destruct (Z.leb_spec n r); lia.
Qed.
Lemma residues_end : forall n p x k k' d f d' f', 0 <= p -> Z.odd n = true -> 0 < n < B ^ (p + 1) -> batches k (1, n, x) = (d, f, 0) -> batches k' (1, n, x) = (d', f', 0) ->
  f = f' /\ fst (residues n p x k) = fst (residues n p x k').
Proof.
  intros n p x k k' d f d' f' Hp HO Hn E E'. destruct (Nat.le_ge_cases k k') as [L|L].
  - destruct (residues_stop n p x k d f (k' - k) Hp HO Hn E) as [[d2 E2] R]. replace (k + (k' - k))%nat with k' in * by lia. split; congruence.
  - destruct (residues_stop n p x k' d' f' (k - k') Hp HO Hn E') as [[d2 E2] R]. replace (k' + (k - k'))%nat with k in * by lia. split; congruence.
Qed.

Lemma late_swaps_fit : forall n p x, 0 <= p -> late_swaps n p x -> residues_fit n p x.
Proof.
  intros n p x Hp [HN HL] k r u Hr Hu. specialize (HL k). pose proof (steps_rows_inv (Z.to_nat (W - 2)) (batches k (1, n, x))) as HI.
  destruct (steps_rows (Z.to_nat (W - 2)) (batches k (1, n, x))) as [[[[d f] g] [[a b] s]] [[e h] t]]. destruct (batches k (1, n, x)) as [[d0 f0] g0].
  destruct HI as (Et & Hs & A0 & A1 & I0 & _). pose proof W_cases as WC. assert (WP : 0 <= W - 2) by (clear - WC; lia). rewrite Z2Nat.id in Et by auto. intros _ _. subst t.
  pose proof (Bpow_pos p Hp) as PP. assert (HB : 2 * n <= B ^ (p + 1)).
  { rewrite Bpow_S by auto. assert (EB : B = 4 * 2 ^ (W - 2)) by (unfold B; change 4 with (2 ^ 2); rewrite <- Z.pow_add_r by (clear - WP; lia); f_equal; clear; lia).
    pose proof (pow2_gt0 (W - 2) WP) as P2. clear - EB P2 PP HN. set (P := B ^ p) in *. clearbody P. rewrite EB. pf (mul_nn (2 ^ (W - 2)) P). clear EB. lia. }
  split; [|apply row_fits_norm; auto].
  destruct HL as [->|HL]; [apply row_fits_id; auto; clear - HB Hr; lia|apply row_fits_norm; auto; clear - Hs; lia].
Qed.

Lemma spare_late : forall n p x, 0 <= p -> 0 < n <= B ^ p -> late_swaps n p x.
Proof.
  intros n p x Hp HN. pose proof W_cases as WC. pose proof (Bpow_pos p Hp) as PP.
  assert (G : forall s, 0 <= s -> n <= 2 ^ s * B ^ p). { intros s Hs. pose proof (pow2_gt0 s Hs). pf (mul_le_l (B ^ p) 1 (2 ^ s)). lia. }
  split; [apply G; lia|]. intros k. pose proof (steps_rows_inv (Z.to_nat (W - 2)) (batches k (1, n, x))) as HI.
  destruct (steps_rows (Z.to_nat (W - 2)) (batches k (1, n, x))) as [[[[d f] g] [[a b] s]] [[e h] t]]. right. apply G. clear - HI; destruct HI as (_ & HI & _). apply HI.
Qed.
Lemma spare_fit : forall n p x, 0 <= p -> 0 < n <= B ^ p -> residues_fit n p x.
Proof. intros. apply late_swaps_fit; [auto|]. apply spare_late; auto. Qed.
End Facts.
