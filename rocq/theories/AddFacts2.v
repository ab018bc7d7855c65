(** Facts about limb addition, negation and the modular variants. *)
From Coq Require Import ZArith List Bool Lia.
Require Import Verif.Spec Verif.Base Verif.Monad Verif.Wp Verif.ModelLimb Verif.LimbFacts Verif.LimbFacts2
  Verif.ModelBuf Verif.SpecBuf Verif.BufFacts Verif.BufFacts2 Verif.BufFacts3 Verif.UpFacts Verif.ModelCmp Verif.CmpFacts Verif.ModelAdd Verif.AddFacts.
Import ListNotations.
Open Scope Z_scope.

Section Facts.
Context {c : cfg}.

Lemma len0 : forall a, nlimbs a = 0 -> mp_len a = 0.
Proof. intros a E. pose proof (nlimbs_spec a). pose proof (mp_len_nonneg a). rewrite E in *. lia. Qed.
Lemma one_limb_lim : forall a, nlimbs a = 1 -> lim a 0 = 256 ^ mp_len a.
Proof. intros a E. rewrite <- lim_total by lia. rewrite E. change (1 - 1) with 0. rewrite Z.pow_0_r. lia. Qed.

Lemma wp_add_mp_l : forall a x (Q : mp * Z -> Prop), mp_ok a -> isl x -> x < 256 ^ mp_len a ->
  (forall a' k, addpost a x a' k -> Q (a', k)) -> wp (ct_add_mp_l a x) Q.
Proof.
  intros a x Q Ha Hx Hf HQ. unfold ct_add_mp_l. pose proof (mp_len_nonneg a) as La. pose proof (nlimbs_nonneg a) as Na.
  pose proof (mpval_bound a Ha) as Ba. unfold isl in Hx.
  apply wp_bind, wp_dassert_m.
  { apply wp_bind, wp_fls_byte; auto. apply wp_ret. apply Z.leb_le. apply nbytes_le_iff; lia. }
  apply wp_mif; intros E.
  { apply Z.eqb_eq in E. apply wp_ret, HQ. rewrite (len0 a E), Z.pow_0_r in Hf. split; [auto|]. exists (mpval a).
    split; [split; [auto|split; [apply shape_refl|auto]]|]. lia. }
  apply Z.eqb_neq in E. set (A := mpval a) in *.
  set (I := fun i a' k => exists L, upinv a A i L a' /\ (i = 0 /\ k = x \/ 0 < i /\ (k = 0 \/ k = 1)) /\ L + k * B ^ i = A mod B ^ i + x).
  apply wp_bind. eapply wp_for with (I := fun i '(a', k) => I i a' k); [lia| | |].
  - exists 0. split; [apply upinv_init; auto|]. split; [auto|]. rewrite !vmod_0. lia.
  - intros i [a' k] Hi (L & U & Hk & EL). apply wp_bind. eapply wp_up_load_full; eauto; [lia|apply full_inner; lia|].
    pose proof B_gt as HB.
    apply wp_bind, wp_add_l; try apply vlimb_isl; [unfold isl; lia|]. intros k' r Hk' Hr ER.
    apply wp_bind. eapply wp_up_store_full; eauto; [lia|apply full_inner; lia|]. intros a'' U'. apply wp_ret.
    eexists. split; [exact U'|]. split; [right; split; [lia|auto]|]. rewrite vmod_S, Bpow_S by lia.
    rewrite (add_step_eq (B ^ i) L k (A mod B ^ i) x (vlimb A i) 0 r k'); lia.
  - intros [a' k] (L & U & Hk & EL). apply wp_bind. eapply wp_up_load; eauto; [lia|lia|]. pose proof B_gt as HB.
    assert (Hk2 : 0 <= k < B) by lia.
    apply wp_bind, wp_add_l; try apply vlimb_isl; [unfold isl; lia|]. intros k' r Hk' Hr ER.
    pf (fit_limb_last a A) as F1. pf (lim_pos a (nlimbs a - 1)) as LP.
    assert (K2 : k <= lim a (nlimbs a - 1)).
    { destruct Hk as [[K1 K2]|[K1 K2]]; [|lia]. rewrite K1, one_limb_lim by lia. lia. }
    eapply wp_add_high with (F := fun b k => ret (b, k)); eauto; [lia|lia|].
    intros a2 k2 Hk2' U2 E2. apply wp_ret, HQ. split; auto. eexists. split; [eapply upinv_done; eauto; lia|]. rewrite <- lim_total by lia.
    fold A. rewrite (add_high_eq _ _ L k (A mod B ^ (nlimbs a - 1)) x (vlimb A (nlimbs a - 1)) 0 r k' _ k2 EL); try lia.
    rewrite <- fit_split by (auto; lia). lia.
Qed.

Lemma wp_sub_mp_l : forall a x (Q : mp * Z -> Prop), mp_ok a -> isl x -> x < 256 ^ mp_len a ->
  (forall a' k, subpost a x a' k -> Q (a', k)) -> wp (ct_sub_mp_l a x) Q.
Proof.
  intros a x Q Ha Hx Hf HQ. unfold ct_sub_mp_l. pose proof (mp_len_nonneg a) as La. pose proof (nlimbs_nonneg a) as Na.
  pose proof (mpval_bound a Ha) as Ba. unfold isl in Hx.
  apply wp_bind, wp_dassert_m.
  { apply wp_bind, wp_fls_byte; auto. apply wp_ret. apply Z.leb_le. apply nbytes_le_iff; lia. }
  apply wp_mif; intros E.
  { apply Z.eqb_eq in E. apply wp_ret, HQ. rewrite (len0 a E), Z.pow_0_r in Hf. split; [auto|]. exists (mpval a).
    split; [split; [auto|split; [apply shape_refl|auto]]|]. lia. }
  apply Z.eqb_neq in E. set (A := mpval a) in *.
  set (I := fun i a' k => exists L, upinv a A i L a' /\ (i = 0 /\ k = x \/ 0 < i /\ (k = 0 \/ k = 1)) /\ L - k * B ^ i = A mod B ^ i - x).
  apply wp_bind. eapply wp_for with (I := fun i '(a', k) => I i a' k); [lia| | |].
  - exists 0. split; [apply upinv_init; auto|]. split; [auto|]. rewrite !vmod_0. lia.
  - intros i [a' k] Hi (L & U & Hk & EL). apply wp_bind. eapply wp_up_load_full; eauto; [lia|apply full_inner; lia|].
    pose proof B_gt as HB.
    apply wp_bind, wp_sub_l; try apply vlimb_isl; [unfold isl; lia|]. intros r Hr ER. set (k' := b2z (vlimb A i <? k)) in *.
    assert (Hk' : k' = 0 \/ k' = 1) by (unfold k'; destruct (_ <? _); auto).
    apply wp_bind. eapply wp_up_store_full; eauto; [lia|apply full_inner; lia|]. intros a'' U'. apply wp_ret.
    eexists. split; [exact U'|]. split; [right; split; [lia|auto]|]. rewrite vmod_S, Bpow_S by lia.
    rewrite (sub_step_eq (B ^ i) L k (A mod B ^ i) x (vlimb A i) 0 r k'); lia.
  - intros [a' k] (L & U & Hk & EL). apply wp_bind. eapply wp_up_load; eauto; [lia|lia|]. pose proof B_gt as HB.
    assert (Hk2 : 0 <= k < B) by lia.
    apply wp_bind, wp_sub_l; try apply vlimb_isl; [unfold isl; lia|]. intros r Hr ER. set (k' := b2z (vlimb A (nlimbs a - 1) <? k)) in *.
    assert (Hk' : k' = 0 \/ k' = 1) by (unfold k'; destruct (_ <? _); auto).
    pf (fit_limb_last a A) as F1. pf (lim_pos a (nlimbs a - 1)) as LP.
    assert (K2 : exists y k0, 0 <= y < lim a (nlimbs a - 1) /\ 0 <= k0 <= 1 /\ k = y + k0).
    { destruct Hk as [[K1 K2]|[K1 K2]]; [|exists 0, k; lia]. exists k, 0. rewrite K1, one_limb_lim by lia. lia. }
    destruct K2 as (y & k0 & Y1 & Y2 & Y3).
    eapply wp_sub_high with (F := fun b => ret (b, k')) (va := vlimb A (nlimbs a - 1)) (vx := y) (k := k0); eauto; [lia|lia|].
    intros a2 U2 E2. apply wp_ret, HQ. split; auto. eexists. split; [eapply upinv_done; eauto; lia|]. rewrite <- lim_total by lia.
    fold A. rewrite (sub_high_eq _ _ L k (A mod B ^ (nlimbs a - 1)) x (vlimb A (nlimbs a - 1)) 0 _ k' EL); try lia.
    rewrite <- fit_split by (auto; lia). lia.
Qed.

(** ** Negation *)

Lemma lxor_ones_l : forall v, isl v -> Z.lxor v (B - 1) = B - 1 - v.
Proof. intros v Hv. rewrite <- ones_W. fold (lnot v). rewrite lnot_eq by auto. rewrite <- ones_W. reflexivity. Qed.

Lemma lim_div_B : forall a, 0 < nlimbs a -> exists q, B = lim a (nlimbs a - 1) * q.
Proof.
  intros a Hn. destruct (lim_last_pow2 a Hn) as (s & Hs & E). exists (2 ^ (W - s)). rewrite E, <- Z.pow_add_r by lia. unfold B. f_equal. lia.
Qed.
Lemma hi_mod : forall P l L r, 0 < P -> 0 < l -> 0 <= L < P -> (L + r * P) mod (P * l) = L + (r mod l) * P.
Proof.
  intros P l L r HP Hl HL. rewrite mod_mul_split by auto. rewrite (Z.mul_comm r P), lohi_mod, lohi_div by auto. ring.
Qed.

Lemma wp_negate_cond : forall a (z : bool) (Q : mp -> Prop), mp_ok a ->
  (forall a', becomes a a' (if z then (- mpval a) mod 256 ^ mp_len a else mpval a) -> Q a') ->
  wp (ct_negate_cond_mp a (chc z)) Q.
Proof.
  intros a z Q Ha HQ. unfold ct_negate_cond_mp. rewrite empty_nlimbs. pose proof (nlimbs_nonneg a) as Na. pose proof B_gt as HB.
  pose proof (mpval_bound a Ha) as Ba. pose proof (mp_len_nonneg a) as La.
  apply wp_mif; intros E.
  { apply Z.eqb_eq in E. apply wp_ret, HQ. split; [auto|split; [apply shape_refl|]]. destruct z; auto.
    rewrite (empty_val a Ha E), (len0 a E). reflexivity. }
  apply Z.eqb_neq in E.
  rewrite lc_select_chc; [|apply isl_0|rewrite lnot_0; unfold isl; lia]. rewrite lnot_0.
  set (mask := if z then B - 1 else 0).
  assert (M1 : Z.land mask 1 = if z then 1 else 0).
  { unfold mask. destruct z; [|reflexivity]. change 1 with (2 ^ 1 - 1) at 2. rewrite land_mask by lia.
    rewrite B_pow2_half. replace (2 * 2 ^ (W - 1) - 1) with (1 + (2 ^ (W - 1) - 1) * 2) by lia. change (2 ^ 1) with 2. rewrite Z.mod_add by lia. reflexivity. }
  assert (MX : forall v, isl v -> Z.lxor v mask = if z then B - 1 - v else v).
  { intros v Hv. unfold mask. destruct z; [apply lxor_ones_l; auto|apply Z.lxor_0_r]. }
  rewrite M1. set (A := mpval a) in *.
  set (T := fun i => if z then B ^ i - A mod B ^ i else A mod B ^ i).
  set (I := fun i a' k => exists L, upinv a A i L a' /\ (k = 0 \/ k = 1) /\ L + k * B ^ i = T i).
  assert (STEP : forall i L k r k', 0 <= i -> L + k * B ^ i = T i -> (if z then B - 1 - vlimb A i else vlimb A i) + k = r + B * k' ->
     L + r * B ^ i + k' * B ^ (i + 1) = T (i + 1)).
  { intros i L k r k' Hi EL ER. unfold T in *. rewrite vmod_S, Bpow_S by auto. destruct z.
    - rewrite (add_step_eq (B ^ i) L k (B ^ i - A mod B ^ i) 0 (B - 1 - vlimb A i) 0 r k') by lia. ring.
    - rewrite (add_step_eq (B ^ i) L k (A mod B ^ i) 0 (vlimb A i) 0 r k') by lia. ring. }
  assert (XI : forall i, isl (if z then B - 1 - vlimb A i else vlimb A i)).
  { intros i. pose proof (vlimb_isl A i) as V. unfold isl in *. destruct z; lia. }
  apply wp_bind. eapply wp_for with (I := fun i '(a', k) => I i a' k); [lia| | |].
  - exists 0. split; [apply upinv_init; auto|]. unfold T. rewrite !vmod_0. destruct z; lia.
  - intros i [a' k] Hi (L & U & Hk & EL). apply wp_bind. eapply wp_up_load; eauto; [lia|lia|]. rewrite MX by apply vlimb_isl.
    apply wp_bind, wp_add_l; [apply XI|unfold isl; lia|]. intros k' r Hk' Hr ER.
    apply wp_bind. eapply wp_up_store; eauto; [lia|rewrite lim_inner by lia; auto|]. intros a'' U'. apply wp_ret.
    eexists. split; [exact U'|]. split; auto. eapply STEP; eauto. lia.
  - intros [a' k] (L & U & Hk & EL). apply wp_bind. eapply wp_up_load; eauto; [lia|lia|]. rewrite MX by apply vlimb_isl.
    apply wp_bind, wp_add_l; [apply XI|unfold isl; lia|]. intros k' r Hk' Hr ER.
    apply wp_bind. eapply wp_up_mask; eauto; [lia|].
    eapply wp_up_store_last; eauto; [lia|]. intros a2 U2. apply HQ.
    assert (EV : (if z then (- A) mod 256 ^ mp_len a else A) = L + r mod lim a (nlimbs a - 1) * B ^ (nlimbs a - 1)).
    { pf (lim_pos a (nlimbs a - 1)) as LP. pf (Bpow_pos (nlimbs a - 1)) as PP.
      rewrite <- (hi_mod _ _ L r) by (try lia; apply (upinv_L _ _ _ _ _ U)). rewrite lim_total by lia.
      pf (STEP (nlimbs a - 1) L k r k') as ST. replace (nlimbs a - 1 + 1) with (nlimbs a) in ST by lia.
      assert (TA : A mod B ^ nlimbs a = A) by (apply Z.mod_small, fit_bound_B; auto). unfold T in ST. rewrite TA in ST.
      destruct (lim_div_B a) as [q Eq]; [lia|].
      assert (BN : B ^ nlimbs a = q * 256 ^ mp_len a).
      { rewrite <- lim_total by lia. replace (nlimbs a) with ((nlimbs a - 1) + 1) at 1 by lia. rewrite Bpow_S by lia. rewrite Eq. ring. }
      pf (p256_pos (mp_len a)) as PL.
      destruct z.
      - replace (L + r * B ^ (nlimbs a - 1)) with (- A + (q - k' * q) * 256 ^ mp_len a).
        + rewrite Z.mod_add by lia. auto.
        + rewrite BN in ST. replace ((q - k' * q) * 256 ^ mp_len a) with (q * 256 ^ mp_len a - k' * (q * 256 ^ mp_len a)) by ring. lia.
      - replace (L + r * B ^ (nlimbs a - 1)) with (A + (- k' * q) * 256 ^ mp_len a).
        + rewrite Z.mod_add by lia. symmetry. apply Z.mod_small. auto.
        + rewrite BN in ST. replace ((- k' * q) * 256 ^ mp_len a) with (- (k' * (q * 256 ^ mp_len a))) by ring. lia. }
    fold A. rewrite EV. eapply upinv_done; eauto. lia.
Qed.
Lemma wp_negate : forall a (Q : mp -> Prop), mp_ok a ->
  (forall a', becomes a a' ((- mpval a) mod 256 ^ mp_len a) -> Q a') -> wp (ct_negate_mp a) Q.
Proof. intros. apply wp_bind, (wp_lc_new true); [reflexivity|]. apply wp_negate_cond; auto. Qed.

(** ** Modular variants *)

Lemma wp_dassert_lt : forall a b (Q : unit -> Prop), mp_ok a -> mp_ok b -> mpval a < mpval b -> Q tt -> wp (dassert_lt a b) Q.
Proof.
  intros a b Q Ha Hb H HQ. unfold dassert_lt. apply wp_dassert_m; auto. apply wp_bind, wp_lt_mp; auto. apply wp_ret.
  rewrite (proj2 (Z.ltb_lt _ _)) by auto. rewrite lc_unwrap_chc. reflexivity.
Qed.
(** What the length check implies. *)
Lemma compat_nlimbs : forall n len, mp_ok n -> 0 <= len -> mp_len n < len + LB -> (supports_unaligned n = true -> mp_len n <= len) ->
  nlimbs n <= ct_mp_nlimbs len.
Proof.
  intros n len Hn Hl H1 H2. pose proof (nlimbs_spec n). pose proof (ct_mp_nlimbs_spec len Hl). pose proof LB_pos.
  destruct (supports_unaligned n) eqn:U.
  - specialize (H2 eq_refl). unfold nlimbs, ct_mp_nlimbs. apply Z.div_le_mono; lia.
  - assert (E : mp_len n = nlimbs n * LB).
    { destruct n as [l|l|l]; try discriminate. unfold nlimbs. cbn [mp_len]. rewrite (ct_mp_nlimbs_unique _ (zlen l)); auto; [apply zlen_nonneg|lia]. }
    assert (nlimbs n - 1 < ct_mp_nlimbs len); [|lia]. apply (mul_lt_cancel LB); lia.
Qed.

Lemma wp_store_masked : forall a V0 i L b r (Q : mp -> Prop), upinv a V0 i L b -> 0 <= i < nlimbs a -> isl r ->
  (forall b', upinv a V0 (i + 1) ((L + r * B ^ i) mod 256 ^ mp_len a) b' -> Q b') -> wp (store_masked b i r) Q.
Proof.
  intros a V0 i L b r Q U Hi Hr HQ. unfold store_masked. rewrite (upinv_unal _ _ _ _ _ U), (upinv_nlimbs _ _ _ _ _ U).
  pose proof (upinv_L _ _ _ _ _ U) as HL. pf (Bpow_pos i) as PP. pose proof (mp_len_nonneg a) as La.
  apply wp_mif; intros C.
  - assert (F : (i + 1) * LB <= mp_len a).
    { apply orb_true_iff in C. destruct C as [C|C]; apply negb_true_iff in C; [apply ne_full; auto; lia|apply Z.eqb_neq in C; apply full_inner; lia]. }
    eapply wp_up_store_full; eauto; [lia|]. intros b' U'. apply HQ. rewrite Z.mod_small; auto.
    pose proof (upinv_L _ _ _ _ _ U') as HL'. split; [lia|]. eapply Z.lt_le_trans; [apply HL'|]. rewrite Bpow256 by lia.
    apply Z.pow_le_mono_r; lia.
  - apply orb_false_iff in C. destruct C as [_ C]. apply negb_false_iff, Z.eqb_eq in C. subst i.
    apply wp_bind. eapply wp_up_mask; eauto; [lia|]. eapply wp_up_store_last; eauto; [lia|]. intros b' U'. apply HQ.
    pf (lim_pos a (nlimbs a - 1)). rewrite <- lim_total, hi_mod by lia. replace (nlimbs a - 1 + 1) with (nlimbs a) by lia. auto.
Qed.
Lemma small_len : forall a i, 0 <= i < nlimbs a -> B ^ i <= 256 ^ mp_len a.
Proof.
  intros a i Hi. rewrite Bpow256 by lia. apply Z.pow_le_mono_r; [lia|]. pose proof (nlimbs_lt a i ltac:(lia)). lia.
Qed.

(** [a'] has the shape of [a] and holds [v]; or the operation was rejected. *)
Definition mod_result (a n : mp) (v : Z) (a' : mp) (r : result unit add_mod_error) : Prop :=
  (r = Ok tt /\ becomes a a' v) \/ (r = Err InconsistentOperandLengths /\ a' = a /\ mp_len a < mp_len n).

Lemma mod_unique : forall V m x t, 0 <= V < m -> 0 <= x < m -> V = x + t * m -> V = x.
Proof. intros V m x t HV Hx E. assert (V mod m = x mod m) by (rewrite E, Z.mod_add; lia). rewrite !Z.mod_small in H by auto. auto. Qed.

(** What is left, whatever the lengths: a carry out of [n]'s limbs is lost if [a] has more of them. *)
Definition add_mod_value (a b n : mp) : Z :=
  (mpval a + mpval b - (if mpval n <=? mpval a + mpval b then mpval n else 0)
   - (if (nlimbs a =? nlimbs n) || (mpval a + mpval b <? B ^ nlimbs n) then 0 else B ^ nlimbs n)) mod 256 ^ mp_len a.
Definition sub_mod_value (a b n : mp) : Z :=
  (mpval a - mpval b + (if mpval a <? mpval b then mpval n + (if nlimbs a =? nlimbs n then 0 else B ^ nlimbs n) else 0)) mod 256 ^ mp_len a.

Lemma wp_add_mod_gen : forall a b n (Q : mp * result unit add_mod_error -> Prop), mp_ok a -> mp_ok b -> mp_ok n ->
  mpval a < mpval n -> mpval b < mpval n ->
  (forall a' r, mod_result a n (add_mod_value a b n) a' r -> (r = Ok tt -> nlimbs n <= nlimbs a /\ mpval n < 256 ^ mp_len a) -> Q (a', r)) ->
  wp (ct_add_mod_mp_mp a b n) Q.
Proof.
  intros a b n Q Ha Hb Hn HA HX HQ. unfold ct_add_mod_mp_mp.
  unfold add_mod_value in HQ.
  pose proof (mp_len_nonneg a) as La. pose proof (nlimbs_nonneg n) as Nn. pose proof (nlimbs_nonneg b) as Nb.
  apply wp_bind, wp_len_compat; auto. intros cr C1 C2 _. apply wp_mif; intros C.
  { apply wp_ret, HQ; [|discriminate]. right. split; auto. split; auto. destruct cr; [discriminate|]. destruct (Z_lt_le_dec (mp_len a) (mp_len n)) as [?|l0]; auto. specialize (C2 l0). discriminate. }
  destruct cr; [|discriminate]. destruct (C1 eq_refl) as (NF & NL & NU). clear C C1 C2.
  pose proof (compat_nlimbs n (mp_len a) Hn La NL NU) as NN. fold (nlimbs a) in NN.
  apply wp_bind, wp_dassert; [apply Z.leb_le; auto|].
  apply wp_bind, wp_dassert_lt; auto. apply wp_bind, wp_dassert_lt; auto.
  pose proof (mpval_nonneg a Ha) as A0. pose proof (mpval_nonneg b Hb) as X0.
  pose proof (mpval_bound_B n Hn) as BN.
  assert (Nn1 : 0 < nlimbs n).
  { destruct (Z.eq_dec (nlimbs n) 0) as [E|E]; [|lia]. rewrite (empty_val n Hn E) in HA. lia. }
  apply wp_bind, wp_dassert. { rewrite empty_nlimbs. destruct (Z.eqb_spec (nlimbs n) 0); [lia|auto]. }
  set (A := mpval a) in *. set (X := mpval b) in *. set (N := mpval n) in *.
  pf (p256_pos (mp_len a)) as PL.
  set (I := fun i a' k g => exists R, 0 <= R < B ^ i /\ upinv a A i (R mod 256 ^ mp_len a) a' /\ (k = 0 \/ k = 1) /\
     R + k * B ^ i = A mod B ^ i + X mod B ^ i /\ g = b2z (N mod B ^ i <=? R mod B ^ i)).
  assert (STEP : forall i a' R k r k' g (Q : mp * Z * Z -> Prop), 0 <= i < nlimbs n -> 0 <= R < B ^ i -> upinv a A i (R mod 256 ^ mp_len a) a' ->
      R + k * B ^ i = A mod B ^ i + X mod B ^ i -> (k' = 0 \/ k' = 1) -> isl r -> vlimb A i + vlimb X i + k = r + B * k' ->
      g = b2z (N mod B ^ i <=? R mod B ^ i) ->
      (forall a2 g', I (i + 1) a2 k' g' -> Q (a2, k', g')) ->
      wp (let! n_val := load_l n i in let! g := geq_kernel_update g r n_val in let! a2 := store_masked a' i r in ret (a2, k', g)) Q).
  { intros i a' R k r k' g Q0 Hi HR U EL Hk' Hr ER Eg HQ0. pf (Bpow_pos i) as PP. unfold isl in Hr.
    apply wp_bind, wp_load; auto. apply wp_bind. unfold geq_kernel_update.
    assert (R1 : 0 <= R + r * B ^ i < B ^ (i + 1)).
    { rewrite Bpow_S by lia. pf (mul_nn r (B ^ i)). pf (mul_le_l (B ^ i) r (B - 1)). lia. }
    assert (RV : vlimb (R + r * B ^ i) i = r).
    { unfold vlimb. rewrite Z.div_add, Z.div_small by lia. apply Z.mod_small; lia. }
    assert (RM : (R + r * B ^ i) mod B ^ i = R mod B ^ i) by (rewrite Z.mod_add by lia; auto).
    rewrite Eg, <- RM. apply wp_leq_update; [lia|reflexivity|auto|].
    apply wp_bind. eapply wp_store_masked; eauto; [lia|]. intros a2 U2. apply wp_ret, HQ0.
    exists (R + r * B ^ i). split; [auto|]. split.
    - rewrite (Z.mod_small R) in U2 by (pose proof (small_len a i ltac:(lia)); lia). exact U2.
    - split; [auto|]. split; [|reflexivity]. rewrite !vmod_S, Bpow_S by lia. eapply add_step_eq; eauto. }
  set (m := Z.min (nlimbs b) (nlimbs n)).
  assert (Hm : 0 <= m <= nlimbs n /\ m <= nlimbs b /\ (m = nlimbs n \/ m = nlimbs b)) by (clear - Nn Nb m; lia). clearbody m.
  apply wp_bind. eapply wp_for with (I := fun i '(a', k, g) => I i a' k g); [lia| | |].
  - exists 0. split; [rewrite Z.pow_0_r; lia|]. rewrite Z.mod_0_l by lia. split; [apply upinv_init; auto|]. split; [auto|].
    rewrite !vmod_0. split; [lia|reflexivity].
  - intros i [[a' k] g] Hi (R & HR & U & Hk & EL & Eg). apply wp_bind. eapply wp_up_load; eauto; [lia|lia|].
    apply wp_bind, wp_load; auto; [lia|]. rewrite limb_vlimb.
    apply wp_bind, wp_add_c; try apply vlimb_isl; [lia|]. intros k' r Hk' Hr ER. eapply STEP; eauto. lia.
  - intros [[a' k] g] HI. apply wp_bind. eapply wp_for with (I := fun i '(a', k, g) => I i a' k g); [lia|exact HI| |].
    + intros i [[a1 k1] g1] Hi (R & HR & U & Hk & EL & Eg). apply wp_bind. eapply wp_up_load; eauto; [lia|lia|].
      assert (VX : vlimb X i = 0).
      { apply (vlimb_out X (nlimbs b)); [apply mpval_bound_B; auto|]. lia. }
      apply wp_bind, wp_add_l; [apply vlimb_isl|unfold isl; pose proof B_gt; lia|]. intros k' r Hk' Hr ER. eapply STEP; eauto; lia.
    + intros [[a1 k1] g1] (R & HR & U & Hk & EL & Eg). clear I STEP HI.
      rewrite !(Z.mod_small _ (B ^ nlimbs n)) in EL by lia. rewrite !(Z.mod_small _ (B ^ nlimbs n)) in Eg by lia.
      apply wp_bind. eapply wp_lc_new; [exact Eg|]. apply wp_bind. eapply (wp_lc_new (k1 =? 1)); [destruct Hk as [->| ->]; reflexivity|].
      rewrite lc_or_chc.
      assert (OV : ((N <=? R) || (k1 =? 1)) = (N <=? A + X)).
      { destruct Hk as [->| ->]; cbn [Z.eqb]; rewrite ?orb_false_r, ?orb_true_r.
        - f_equal. lia.
        - symmetry. apply Z.leb_le. lia. }
      rewrite OV. set (ov := N <=? A + X) in *.
      set (lost := if (nlimbs a =? nlimbs n) || (A + X <? B ^ nlimbs n) then 0 else B ^ nlimbs n) in *.
      assert (VA : exists t, mpval a1 = A + X - lost + t * 256 ^ mp_len a).
      { rewrite (upinv_V _ _ _ _ _ U). rewrite (Z.div_small A) by lia.
        pose proof (Z_div_mod_eq_full R (256 ^ mp_len a)) as DR. unfold lost.
        destruct (Z.eqb_spec (nlimbs a) (nlimbs n)) as [HG|HG]; cbn [orb].
        - destruct (lim_div_B a) as [q Eq]; [lia|].
          assert (BN' : B ^ nlimbs n = q * 256 ^ mp_len a).
          { rewrite <- HG. rewrite <- lim_total by lia. replace (nlimbs a) with ((nlimbs a - 1) + 1) at 1 by lia. rewrite Bpow_S by lia. rewrite Eq. ring. }
          rewrite BN' in EL. exists (- (R / 256 ^ mp_len a) - k1 * q).
          replace ((- (R / 256 ^ mp_len a) - k1 * q) * 256 ^ mp_len a) with (- (256 ^ mp_len a * (R / 256 ^ mp_len a)) - k1 * (q * 256 ^ mp_len a)) by ring. lia.
        - exists (- (R / 256 ^ mp_len a)).
          replace (- (R / 256 ^ mp_len a) * 256 ^ mp_len a) with (- (256 ^ mp_len a * (R / 256 ^ mp_len a))) by ring.
          destruct Hk as [->| ->], (Z.ltb_spec (A + X) (B ^ nlimbs n)); lia. }
      destruct VA as [t VA].
      pose proof (upinv_nlimbs _ _ _ _ _ U) as UN. pose proof (upinv_len _ _ _ _ _ U) as UL.
      apply wp_bind. apply wp_sub_cond; [apply (upinv_ok _ _ _ _ _ U)|auto|lia|rewrite UL; auto|].
      intros a2 kb (_ & V & (O2 & S2 & V2) & EV). apply wp_ret, HQ; [|intros _; auto]. left. split; auto.
      split; [auto|]. split; [eapply shape_trans; [apply (upinv_shape _ _ _ _ _ U)|auto]|]. rewrite V2.
      assert (BV : 0 <= V < 256 ^ mp_len a). { rewrite <- V2. pose proof (mpval_bound a2 O2) as Z2. rewrite (shape_len _ _ S2), UL in Z2. auto. }
      fold N in EV. rewrite UL, VA in EV.
      rewrite <- (Z.mod_small V (256 ^ mp_len a)) by auto. replace V with (A + X - (if ov then N else 0) - lost + (t + kb) * 256 ^ mp_len a) by lia.
      apply Z.mod_add. lia.
Qed.
Lemma add_mod_value_ok : forall a b n, mp_ok a -> mp_ok b -> mp_ok n -> nlimbs n <= nlimbs a -> mpval n < 256 ^ mp_len a -> mpval a < mpval n -> mpval b < mpval n ->
  (nlimbs a = nlimbs n \/ mpval a + mpval b < B ^ nlimbs n) -> add_mod_value a b n = (mpval a + mpval b) mod mpval n.
Proof.
  intros a b n Ha Hb Hn NN NF HA HX HG. unfold add_mod_value. pose proof (mpval_nonneg a Ha). pose proof (mpval_nonneg b Hb).
  replace ((nlimbs a =? nlimbs n) || (mpval a + mpval b <? B ^ nlimbs n)) with true.
  2:{ symmetry. apply orb_true_iff. destruct HG; [left; apply Z.eqb_eq|right; apply Z.ltb_lt]; auto. }
  rewrite Z.sub_0_r.
  assert (RES : (mpval a + mpval b) mod mpval n = mpval a + mpval b - (if mpval n <=? mpval a + mpval b then mpval n else 0)).
  { destruct (Z.leb_spec (mpval n) (mpval a + mpval b)).
    - symmetry. apply (Z.mod_unique _ _ 1); lia.
    - rewrite Z.mod_small; lia. }
  rewrite <- RES. apply Z.mod_small. pose proof (Z.mod_pos_bound (mpval a + mpval b) (mpval n)). lia.
Qed.
Lemma mod_result_eq : forall a n v v' a' r, (nlimbs n <= nlimbs a -> mpval n < 256 ^ mp_len a -> v = v') -> mod_result a n v a' r ->
  (r = Ok tt -> nlimbs n <= nlimbs a /\ mpval n < 256 ^ mp_len a) -> mod_result a n v' a' r.
Proof. intros a n v v' a' r E [[H1 H2]|H] HR; [left|right; auto]. destruct (HR H1). rewrite <- E; auto. Qed.
Lemma wp_add_mod : forall a b n (Q : mp * result unit add_mod_error -> Prop), mp_ok a -> mp_ok b -> mp_ok n ->
  mpval a < mpval n -> mpval b < mpval n ->
  (nlimbs a = nlimbs n \/ mpval a + mpval b < B ^ nlimbs n) ->
  (forall a' r, mod_result a n ((mpval a + mpval b) mod mpval n) a' r -> Q (a', r)) ->
  wp (ct_add_mod_mp_mp a b n) Q.
Proof.
  intros a b n Q Ha Hb Hn HA HX HG HQ. apply wp_add_mod_gen; auto. intros a' r H HR. apply HQ. eapply mod_result_eq; [|exact H|exact HR].
  intros. apply add_mod_value_ok; auto.
Qed.

Lemma wp_sub_mod_gen : forall a b n (Q : mp * result unit add_mod_error -> Prop), mp_ok a -> mp_ok b -> mp_ok n ->
  mpval a < mpval n -> mpval b < mpval n ->
  (forall a' r, mod_result a n (sub_mod_value a b n) a' r -> (r = Ok tt -> nlimbs n <= nlimbs a /\ mpval n < 256 ^ mp_len a) -> Q (a', r)) ->
  wp (ct_sub_mod_mp_mp a b n) Q.
Proof.
  intros a b n Q Ha Hb Hn HA HX HQ. unfold ct_sub_mod_mp_mp.
  unfold sub_mod_value in HQ.
  pose proof (mp_len_nonneg a) as La. pose proof (nlimbs_nonneg n) as Nn. pose proof (nlimbs_nonneg b) as Nb.
  apply wp_bind, wp_len_compat; auto. intros cr C1 C2 _. apply wp_mif; intros C.
  { apply wp_ret, HQ; [|discriminate]. right. split; auto. split; auto. destruct cr; [discriminate|]. destruct (Z_lt_le_dec (mp_len a) (mp_len n)) as [?|l0]; auto. specialize (C2 l0). discriminate. }
  destruct cr; [|discriminate]. destruct (C1 eq_refl) as (NF & NL & NU). clear C C1 C2.
  pose proof (compat_nlimbs n (mp_len a) Hn La NL NU) as NN. fold (nlimbs a) in NN.
  apply wp_bind, wp_dassert; [apply Z.leb_le; auto|].
  apply wp_bind, wp_dassert_lt; auto. apply wp_bind, wp_dassert_lt; auto.
  pose proof (mpval_nonneg a Ha) as A0. pose proof (mpval_nonneg b Hb) as X0.
  pose proof (mpval_bound_B n Hn) as BN.
  assert (Nn1 : 0 < nlimbs n).
  { destruct (Z.eq_dec (nlimbs n) 0) as [E|E]; [|lia]. rewrite (empty_val n Hn E) in HA. lia. }
  apply wp_bind, wp_dassert. { rewrite empty_nlimbs. destruct (Z.eqb_spec (nlimbs n) 0); [lia|auto]. }
  set (A := mpval a) in *. set (X := mpval b) in *. set (N := mpval n) in *.
  pf (p256_pos (mp_len a)) as PL.
  set (I := fun i a' k => exists R, 0 <= R < B ^ i /\ upinv a A i (R mod 256 ^ mp_len a) a' /\ (k = 0 \/ k = 1) /\
     R - k * B ^ i = A mod B ^ i - X mod B ^ i).
  assert (STEP : forall i a' R k r k' (Q : mp * Z -> Prop), 0 <= i < nlimbs n -> 0 <= R < B ^ i -> upinv a A i (R mod 256 ^ mp_len a) a' ->
      R - k * B ^ i = A mod B ^ i - X mod B ^ i -> (k' = 0 \/ k' = 1) -> isl r -> vlimb A i - vlimb X i - k = r - B * k' ->
      (forall a2, I (i + 1) a2 k' -> Q (a2, k')) ->
      wp (let! a2 := store_masked a' i r in ret (a2, k')) Q).
  { intros i a' R k r k' Q0 Hi HR U EL Hk' Hr ER HQ0. pf (Bpow_pos i) as PP. pose proof Hr as Hr'. unfold isl in Hr.
    assert (R1 : 0 <= R + r * B ^ i < B ^ (i + 1)).
    { rewrite Bpow_S by lia. pf (mul_nn r (B ^ i)). pf (mul_le_l (B ^ i) r (B - 1)). lia. }
    apply wp_bind. eapply wp_store_masked; eauto; [lia|]. intros a2 U2. apply wp_ret, HQ0.
    exists (R + r * B ^ i). split; [auto|]. split.
    - rewrite (Z.mod_small R) in U2 by (pose proof (small_len a i ltac:(lia)); lia). exact U2.
    - split; [auto|]. rewrite !vmod_S, Bpow_S by lia. eapply sub_step_eq; eauto. }
  set (m := Z.min (nlimbs b) (nlimbs n)).
  assert (Hm : 0 <= m <= nlimbs n /\ m <= nlimbs b /\ (m = nlimbs n \/ m = nlimbs b)) by (clear - Nn Nb m; lia). clearbody m.
  apply wp_bind. eapply wp_for with (I := fun i '(a', k) => I i a' k); [lia| | |].
  - exists 0. split; [rewrite Z.pow_0_r; lia|]. rewrite Z.mod_0_l by lia. split; [apply upinv_init; auto|]. split; [auto|].
    rewrite !vmod_0. lia.
  - intros i [a' k] Hi (R & HR & U & Hk & EL). apply wp_bind. eapply wp_up_load; eauto; [lia|lia|].
    apply wp_bind, wp_load; auto; [lia|]. rewrite limb_vlimb.
    apply wp_bind, wp_sub_b; try apply vlimb_isl; [lia|]. intros k' r Hk' Hr ER. eapply STEP; eauto. lia.
  - intros [a' k] HI. apply wp_bind. eapply wp_for with (I := fun i '(a', k) => I i a' k); [lia|exact HI| |].
    + intros i [a1 k1] Hi (R & HR & U & Hk & EL). apply wp_bind. eapply wp_up_load; eauto; [lia|lia|].
      assert (VX : vlimb X i = 0).
      { apply (vlimb_out X (nlimbs b)); [apply mpval_bound_B; auto|]. lia. }
      apply wp_bind, wp_sub_l; [apply vlimb_isl|unfold isl; pose proof B_gt; lia|]. intros r Hr ER. eapply STEP; eauto; [lia|destruct (vlimb A i <? k1); auto|lia].
    + intros [a1 k1] (R & HR & U & Hk & EL). clear I STEP HI.
      rewrite !(Z.mod_small _ (B ^ nlimbs n)) in EL by lia.
      apply wp_bind. eapply (wp_lc_new (A <? X)).
      { destruct Hk as [->| ->], (Z.ltb_spec A X); auto; lia. }
      set (lost := if A <? X then if nlimbs a =? nlimbs n then 0 else B ^ nlimbs n else 0) in *.
      assert (VA : exists t, mpval a1 = A - X + lost + t * 256 ^ mp_len a).
      { rewrite (upinv_V _ _ _ _ _ U). rewrite (Z.div_small A) by lia.
        pose proof (Z_div_mod_eq_full R (256 ^ mp_len a)) as DR. unfold lost.
        destruct (Z.eqb_spec (nlimbs a) (nlimbs n)) as [HG|HG].
        - destruct (lim_div_B a) as [q Eq]; [lia|].
          assert (BN' : B ^ nlimbs n = q * 256 ^ mp_len a).
          { rewrite <- HG. rewrite <- lim_total by lia. replace (nlimbs a) with ((nlimbs a - 1) + 1) at 1 by lia. rewrite Bpow_S by lia. rewrite Eq. ring. }
          rewrite BN' in EL. exists (- (R / 256 ^ mp_len a) + k1 * q).
          replace ((- (R / 256 ^ mp_len a) + k1 * q) * 256 ^ mp_len a) with (- (256 ^ mp_len a * (R / 256 ^ mp_len a)) + k1 * (q * 256 ^ mp_len a)) by ring.
          destruct (A <? X); lia.
        - exists (- (R / 256 ^ mp_len a)).
          replace (- (R / 256 ^ mp_len a) * 256 ^ mp_len a) with (- (256 ^ mp_len a * (R / 256 ^ mp_len a))) by ring.
          destruct Hk as [->| ->], (Z.ltb_spec A X); lia. }
      destruct VA as [t VA].
      pose proof (upinv_nlimbs _ _ _ _ _ U) as UN. pose proof (upinv_len _ _ _ _ _ U) as UL.
      apply wp_bind. apply wp_add_cond; [apply (upinv_ok _ _ _ _ _ U)|auto|lia|rewrite UL; auto|].
      intros a2 kb (_ & V & (O2 & S2 & V2) & EV). apply wp_ret, HQ; [|intros _; auto]. left. split; auto.
      split; [auto|]. split; [eapply shape_trans; [apply (upinv_shape _ _ _ _ _ U)|auto]|]. rewrite V2.
      assert (BV : 0 <= V < 256 ^ mp_len a). { rewrite <- V2. pose proof (mpval_bound a2 O2) as Z2. rewrite (shape_len _ _ S2), UL in Z2. auto. }
      fold N in EV. rewrite UL, VA in EV.
      rewrite <- (Z.mod_small V (256 ^ mp_len a)) by auto.
      replace V with (A - X + (if A <? X then N + (if nlimbs a =? nlimbs n then 0 else B ^ nlimbs n) else 0) + (t - kb) * 256 ^ mp_len a).
      * apply Z.mod_add. lia.
      * unfold lost in EV. destruct (A <? X); lia.
Qed.
Lemma sub_mod_value_ok : forall a b n, mp_ok a -> mp_ok b -> mp_ok n -> mpval n < 256 ^ mp_len a -> mpval a < mpval n -> mpval b < mpval n ->
  (nlimbs a = nlimbs n \/ mpval b <= mpval a) -> sub_mod_value a b n = (mpval a - mpval b) mod mpval n.
Proof.
  intros a b n Ha Hb Hn NF HA HX HG. unfold sub_mod_value. pose proof (mpval_nonneg a Ha). pose proof (mpval_nonneg b Hb).
  assert (RES : (mpval a - mpval b) mod mpval n = mpval a - mpval b + (if mpval a <? mpval b then mpval n else 0)).
  { destruct (Z.ltb_spec (mpval a) (mpval b)).
    - symmetry. apply (Z.mod_unique _ _ (-1)); lia.
    - rewrite Z.mod_small; lia. }
  replace (if mpval a <? mpval b then mpval n + (if nlimbs a =? nlimbs n then 0 else B ^ nlimbs n) else 0) with (if mpval a <? mpval b then mpval n else 0).
  - rewrite <- RES. apply Z.mod_small. pose proof (Z.mod_pos_bound (mpval a - mpval b) (mpval n)). lia.
  - destruct (Z.ltb_spec (mpval a) (mpval b)); [|auto]. destruct (Z.eqb_spec (nlimbs a) (nlimbs n)); lia.
Qed.
Lemma wp_sub_mod : forall a b n (Q : mp * result unit add_mod_error -> Prop), mp_ok a -> mp_ok b -> mp_ok n ->
  mpval a < mpval n -> mpval b < mpval n ->
  (nlimbs a = nlimbs n \/ mpval b <= mpval a) ->
  (forall a' r, mod_result a n ((mpval a - mpval b) mod mpval n) a' r -> Q (a', r)) ->
  wp (ct_sub_mod_mp_mp a b n) Q.
Proof.
  intros a b n Q Ha Hb Hn HA HX HG HQ. apply wp_sub_mod_gen; auto. intros a' r H HR. apply HQ. eapply mod_result_eq; [|exact H|exact HR].
  intros. apply sub_mod_value_ok; auto.
Qed.

Lemma wp_negate_mod : forall a n (Q : mp * result unit add_mod_error -> Prop), mp_ok a -> mp_ok n -> mpval a < mpval n ->
  (forall a' r, mod_result a n ((- mpval a) mod mpval n) a' r -> Q (a', r)) ->
  wp (ct_negate_mod_mp a n) Q.
Proof.
  intros a n Q Ha Hn HA HQ. unfold ct_negate_mod_mp.
  pose proof (mp_len_nonneg a) as La. pose proof (nlimbs_nonneg n) as Nn.
  apply wp_bind, wp_len_compat; auto. intros cr C1 C2 _. apply wp_mif; intros C.
  { apply wp_ret, HQ. right. split; auto. split; auto. destruct cr; [discriminate|]. destruct (Z_lt_le_dec (mp_len a) (mp_len n)) as [?|l0]; auto. specialize (C2 l0). discriminate. }
  destruct cr; [|discriminate]. destruct (C1 eq_refl) as (NF & NL & NU). clear C C1 C2.
  pose proof (compat_nlimbs n (mp_len a) Hn La NL NU) as NN. fold (nlimbs a) in NN.
  apply wp_bind, wp_dassert_lt; auto. pose proof (mpval_nonneg a Ha) as A0. pf (p256_pos (mp_len a)) as PL.
  apply wp_bind, wp_is_zero_mp; auto. rewrite lc_not_chc.
  apply wp_bind, wp_negate_cond; auto. intros a1 (O1 & S1 & V1). pose proof (shape_len _ _ S1) as L1. pose proof (shape_nlimbs _ _ S1) as N1.
  apply wp_bind, wp_add_cond; auto; [lia|rewrite L1; auto|]. intros a2 k (_ & V & (O2 & S2 & V2) & EV).
  apply wp_ret, HQ. left. split; auto. split; auto. split; [eapply shape_trans; eauto|]. rewrite V2.
  assert (BV : 0 <= V < 256 ^ mp_len a). { rewrite <- V2. pose proof (mpval_bound a2 O2) as Z2. rewrite (shape_len _ _ S2), L1 in Z2. auto. }
  rewrite L1, V1 in EV. set (A := mpval a) in *. set (N := mpval n) in *. destruct (Z.eqb_spec A 0) as [E|E]; cbn [negb] in EV.
  - rewrite E in *. rewrite Z.mod_0_l by lia. apply (mod_unique V (256 ^ mp_len a) _ (- k)); auto; lia.
  - pose proof (Z_div_mod_eq_full (- A) (256 ^ mp_len a)) as DM.
    replace ((- A) mod N) with (N - A) by (apply (Z.mod_unique _ _ (-1)); lia).
    apply (mod_unique V (256 ^ mp_len a) _ (- k - (- A) / 256 ^ mp_len a)); auto; [lia|].
    replace ((- k - (- A) / 256 ^ mp_len a) * 256 ^ mp_len a) with (- (k * 256 ^ mp_len a) - 256 ^ mp_len a * ((- A) / 256 ^ mp_len a)) by ring. lia.
Qed.

End Facts.
