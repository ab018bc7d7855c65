(** Facts about multiprecision addition, subtraction and negation. *)
From Coq Require Import ZArith List Bool Lia.
Require Import Verif.Spec Verif.Base Verif.Monad Verif.Wp Verif.ModelLimb Verif.LimbFacts Verif.LimbFacts2
  Verif.ModelBuf Verif.SpecBuf Verif.BufFacts Verif.BufFacts2 Verif.BufFacts3 Verif.UpFacts Verif.ModelCmp Verif.CmpFacts Verif.ModelAdd.
Import ListNotations.
Open Scope Z_scope.

Section Facts.
Context {c : cfg}.

Lemma add_step_eq : forall P L k p q x y r k', L + k * P = p + q -> x + y + k = r + B * k' ->
  (L + r * P) + k' * (B * P) = (p + x * P) + (q + y * P).
Proof.
  intros. replace (k' * (B * P)) with ((B * k') * P) by ring. replace (B * k') with (x + y + k - r) by lia.
  replace ((x + y + k - r) * P) with (x * P + y * P + k * P - r * P) by ring. lia.
Qed.
Lemma sub_step_eq : forall P L k p q x y r k', L - k * P = p - q -> x - y - k = r - B * k' ->
  (L + r * P) - k' * (B * P) = (p + x * P) - (q + y * P).
Proof.
  intros. replace (k' * (B * P)) with ((B * k') * P) by ring. replace (B * k') with (r - (x - y - k)) by lia.
  replace ((r - (x - y - k)) * P) with (r * P - x * P + y * P + k * P) by ring. lia.
Qed.

Lemma add_high_eq : forall P l L k p q x y r k1 m k2, L + k * P = p + q -> x + y + k = r + B * k1 -> r + B * k1 = m + l * k2 ->
  (L + m * P) + k2 * (P * l) = (p + x * P) + (q + y * P).
Proof.
  intros. replace (k2 * (P * l)) with ((l * k2) * P) by ring. replace (l * k2) with (x + y + k - m) by lia.
  replace ((x + y + k - m) * P) with (x * P + y * P + k * P - m * P) by ring. lia.
Qed.
Lemma sub_high_eq : forall P l L k p q x y m k2, L - k * P = p - q -> x - y - k = m - l * k2 ->
  (L + m * P) - k2 * (P * l) = (p + x * P) - (q + y * P).
Proof.
  intros. replace (k2 * (P * l)) with ((l * k2) * P) by ring. replace (l * k2) with (m - (x - y - k)) by lia.
  replace ((m - (x - y - k)) * P) with (m * P - x * P + y * P + k * P) by ring. lia.
Qed.

Lemma wp_add_high : forall T a V0 L b r k (F : mp -> Z -> M T) (Q : T -> Prop),
  upinv a V0 (nlimbs a - 1) L b -> 0 < nlimbs a -> isl r -> (k = 0 \/ k = 1) -> r + B * k < 2 * lim a (nlimbs a - 1) ->
  (forall b' k', (k' = 0 \/ k' = 1) -> upinv a V0 (nlimbs a) (L + (r mod lim a (nlimbs a - 1)) * B ^ (nlimbs a - 1)) b' ->
     r + B * k = r mod lim a (nlimbs a - 1) + lim a (nlimbs a - 1) * k' -> wp (F b' k') Q) ->
  wp (let! m := partial_high_mask b in
      let sh := partial_high_shift b in
      let! b := store_l b (nlimbs a - 1) (Z.land r m) in
      let! ch := lshr (Z.land r (lnot m)) sh in
      dassert ((k =? 0) || (ch =? 0)) ;;
      F b (Z.lor k ch)) Q.
Proof.
  intros T a V0 L b r k F Q H Hn Hr Hk Hb HQ.
  apply wp_bind. eapply wp_up_mask; eauto. cbv zeta. rewrite (up_shift _ _ _ _ _ H).
  apply wp_bind. eapply (wp_up_store_last a V0); eauto. intros b' H'.
  rewrite land_lnot_lim' by auto. pf (lim_pos a (nlimbs a - 1)) as LP. pose proof W_pos as HW. pose proof B_pos as HB.
  set (l := lim a (nlimbs a - 1)) in *.
  assert (DM : r = l * (r / l) + r mod l) by (apply Z.div_mod; lia).
  assert (MB : 0 <= r mod l < l) by (apply Z.mod_pos_bound; lia). unfold isl in Hr.
  destruct (lim_last_shift a Hn) as [[E1 E2]|[E1 E2]]; fold l in E2.
  - rewrite E2 in *. assert (M : r mod B = r) by (apply Z.mod_small; lia). rewrite M in *.
    rewrite E1. apply wp_bind, wp_lshr; [lia|]. rewrite Z.sub_diag, Z.pow_0_r, Z.div_1_r.
    apply wp_bind, wp_dassert; [apply orb_true_r|]. rewrite Z.lor_0_r. apply HQ; auto.
  - destruct (lim_half a Hn) as [HB'|[_ HH]]; fold l in HB' || fold l in HH.
    { exfalso. assert (2 ^ partial_high_shift a < B) by (unfold B; apply Z.pow_lt_mono_r; lia). lia. }
    assert (k = 0) by (destruct Hk as [->| ->]; lia). subst k.
    apply wp_bind, wp_lshr; [lia|]. replace (r - r mod l) with (r / l * l) by lia.
    rewrite <- E2, Z.div_mul by lia. apply wp_bind, wp_dassert; [reflexivity|]. rewrite Z.lor_0_l. apply HQ; auto; [|lia].
    assert (0 <= r / l) by (apply Z.div_pos; lia). assert (r / l < 2) by (apply Z.div_lt_upper_bound; lia). lia.
Qed.

(** Limb [i] of an integer fitting the buffer. *)
Lemma fit_limb_last : forall a v, 0 < nlimbs a -> 0 <= v < 256 ^ mp_len a -> 0 <= vlimb v (nlimbs a - 1) < lim a (nlimbs a - 1).
Proof. intros. split; [apply vlimb_isl|apply limb_of_small; auto]. Qed.
Lemma fit_bound_B : forall a v, 0 <= v < 256 ^ mp_len a -> 0 <= v < B ^ nlimbs a.
Proof.
  intros a v H. pose proof (nlimbs_nonneg a). rewrite Bpow256 by auto. pose proof (nlimbs_spec a).
  assert (256 ^ mp_len a <= 256 ^ (nlimbs a * LB)) by (apply Z.pow_le_mono_r; lia). lia.
Qed.
Lemma fit_split : forall a v, 0 < nlimbs a -> 0 <= v < 256 ^ mp_len a ->
  v = v mod B ^ (nlimbs a - 1) + vlimb v (nlimbs a - 1) * B ^ (nlimbs a - 1).
Proof.
  intros a v Hn Hv. rewrite <- vmod_S by lia. replace (nlimbs a - 1 + 1) with (nlimbs a) by lia.
  symmetry. apply Z.mod_small, fit_bound_B. auto.
Qed.

Definition addpost (a : mp) (X : Z) (b : mp) (k : Z) : Prop :=
  (k = 0 \/ k = 1) /\ exists V, becomes a b V /\ V + k * 256 ^ mp_len a = mpval a + X.

Lemma wp_add_cond : forall a b z (Q : mp * Z -> Prop), mp_ok a -> mp_ok b -> nlimbs b <= nlimbs a ->
  (z = true -> mpval b < 256 ^ mp_len a) ->
  (forall a' k, addpost a (if z then mpval b else 0) a' k -> Q (a', k)) ->
  wp (ct_add_cond_mp_mp a b (chc z)) Q.
Proof.
  intros a b z Q Ha Hb Hn Hf HQ. unfold ct_add_cond_mp_mp.
  pose proof (nlimbs_nonneg b) as Nb. pose proof (mpval_bound_B b Hb) as Bb. pose proof (mpval_bound a Ha) as Ba.
  pose proof (mp_len_nonneg a) as La. pf (p256_pos (mp_len a)) as P256.
  assert (BX : 0 <= (if z then mpval b else 0) < 256 ^ mp_len a) by (destruct z; auto; lia).
  assert (BXb : 0 <= (if z then mpval b else 0) < B ^ nlimbs b) by (destruct z; auto; pf (Bpow_pos (nlimbs b)); lia).
  set (X := if z then mpval b else 0) in *. set (A := mpval a) in *.
  apply wp_bind, wp_dassert; [apply Z.leb_le; auto|]. apply wp_mif; intros E.
  { apply Z.eqb_eq in E. apply wp_ret, HQ. split; [auto|]. exists A. split; [split; [auto|split; [apply shape_refl|auto]]|].
    rewrite E, Z.pow_0_r in BXb. lia. }
  apply Z.eqb_neq in E. assert (Nb1 : 0 <= nlimbs b - 1) by lia.
  set (I := fun i a' k => exists L, upinv a A i L a' /\ (k = 0 \/ k = 1) /\ L + k * B ^ i = A mod B ^ i + X mod B ^ i).
  assert (STEP : forall i L k r k', 0 <= i -> L + k * B ^ i = A mod B ^ i + X mod B ^ i -> vlimb A i + vlimb X i + k = r + B * k' ->
     L + r * B ^ i + k' * B ^ (i + 1) = A mod B ^ (i + 1) + X mod B ^ (i + 1)).
  { intros. rewrite !vmod_S, Bpow_S by auto. eapply add_step_eq; eauto. }
  apply wp_bind. eapply wp_for with (I := fun i '(a', k) => I i a' k); [lia| | |].
  - exists 0. split; [apply upinv_init; auto|]. split; [auto|]. rewrite !vmod_0. lia.
  - intros i [a' k] Hi (L & U & Hk & EL). apply wp_bind. eapply wp_up_load_full; eauto; [lia|apply full_inner; lia|].
    apply wp_bind, wp_load_full; auto; [lia|apply full_inner; lia|]. rewrite limb_vlimb, sel_limb. fold X.
    apply wp_bind, wp_add_c; try apply vlimb_isl; [lia|]. intros k' r Hk' Hr ER.
    apply wp_bind. eapply wp_up_store_full; eauto; [lia|apply full_inner; lia|]. intros a'' U'. apply wp_ret.
    eexists. split; [exact U'|]. split; auto. eapply STEP; eauto. lia.
  - intros [a' k] HI. apply wp_bind, wp_load; auto; [lia|]. rewrite limb_vlimb, sel_limb. fold X.
    apply wp_bind.
    eapply wp_for with (I := fun i '(a', k, x) => x = vlimb X i /\ (I i a' k /\ i < nlimbs a \/ i = nlimbs a /\ addpost a X a' k)); [lia|split; [auto|left; split; [exact HI|lia]]| |].
    + intros i [[a1 k1] x] Hi [-> [[(L & U & Hk & EL) _]|[C _]]]; [|lia].
      apply wp_bind. eapply wp_up_load; eauto; [lia|lia|].
      apply wp_bind, wp_add_c; try apply vlimb_isl; [lia|]. intros k' r Hk' Hr ER.
      assert (EX : 0 = vlimb X (i + 1)) by (symmetry; apply (vlimb_out X (nlimbs b)); auto; lia).
      rewrite (upinv_unal _ _ _ _ _ U).
      apply wp_mif; intros C.
      * assert (F : (i + 1) * LB <= mp_len a).
        { apply orb_true_iff in C. destruct C as [C|C]; apply negb_true_iff in C; [apply Z.eqb_neq in C; apply full_inner; lia|apply ne_full; auto; lia]. }
        apply wp_bind. eapply wp_up_store_full; eauto; [lia|]. intros a2 U2. apply wp_ret. split; auto.
        assert (EL2 := STEP i L k1 r k' (Z.le_trans _ _ _ Nb1 (proj1 Hi)) EL ER). destruct (Z.eq_dec i (nlimbs a - 1)) as [Ei|Ei].
        -- right. split; [lia|]. split; auto. eexists. split; [eapply upinv_done; eauto; lia|].
           replace (i + 1) with (nlimbs a) in EL2 by lia.
           rewrite !Z.mod_small in EL2 by (apply fit_bound_B; auto). fold A. rewrite <- EL2.
           rewrite <- aligned_total; [auto|lia|]. rewrite <- Ei. apply lim_full; auto.
        -- left. split; [|lia]. eexists. split; eauto.
      * apply orb_false_iff in C. destruct C as [C1 C2]. apply negb_false_iff, Z.eqb_eq in C1. subst i.
        pf (fit_limb_last a A) as F1. pf (fit_limb_last a X) as F2.
        eapply wp_add_high with (F := fun b k => ret (b, k, 0)); eauto; [lia|lia|].
        intros a2 k2 Hk2 U2 E2. apply wp_ret. split; auto. right. split; [lia|]. split; auto.
        eexists. split; [eapply upinv_done; eauto; lia|]. rewrite <- lim_total by lia.
        fold A. rewrite (add_high_eq _ _ L k1 _ _ _ _ r k' _ k2 EL ER E2).
        rewrite <- !fit_split by (auto; lia). auto.
    + intros [[a1 k1] x] [_ [[_ C]|[_ HP]]]; [lia|]. apply wp_ret, HQ. exact HP.
Qed.

Lemma wp_add_mp : forall a b (Q : mp * Z -> Prop), mp_ok a -> mp_ok b -> nlimbs b <= nlimbs a -> mpval b < 256 ^ mp_len a ->
  (forall a' k, addpost a (mpval b) a' k -> Q (a', k)) -> wp (ct_add_mp_mp a b) Q.
Proof.
  intros. unfold ct_add_mp_mp. apply wp_bind, (wp_lc_new true); [reflexivity|]. apply wp_add_cond; auto.
Qed.

(** ** Subtraction *)

Definition subpost (a : mp) (X : Z) (b : mp) (k : Z) : Prop :=
  (k = 0 \/ k = 1) /\ exists V, becomes a b V /\ V - k * 256 ^ mp_len a = mpval a - X.

(** The masked store of the last limb of a difference. *)
Lemma wp_sub_high : forall T a V0 L b va vx k r k' (F : mp -> M T) (Q : T -> Prop),
  upinv a V0 (nlimbs a - 1) L b -> 0 < nlimbs a -> isl r -> 0 <= k <= 1 -> (k' = 0 \/ k' = 1) ->
  0 <= va < lim a (nlimbs a - 1) -> 0 <= vx < lim a (nlimbs a - 1) -> va - vx - k = r - B * k' ->
  (forall b', upinv a V0 (nlimbs a) (L + (r mod lim a (nlimbs a - 1)) * B ^ (nlimbs a - 1)) b' ->
     va - vx - k = r mod lim a (nlimbs a - 1) - lim a (nlimbs a - 1) * k' -> wp (F b') Q) ->
  wp (let! m := partial_high_mask b in
      let! b := store_l b (nlimbs a - 1) (Z.land r m) in
      dassert_m (if partial_high_shift b =? 0 then ret true else
                 let! s := lshr r (W - 1) in ret (k' =? s)) ;;
      F b) Q.
Proof.
  intros T a V0 L b va vx k r k' F Q H Hn Hr Hk Hk' Hva Hvx HE HQ.
  apply wp_bind. eapply wp_up_mask; eauto.
  apply wp_bind. eapply (wp_up_store_last a V0); eauto. intros b' H'.
  pf (lim_pos a (nlimbs a - 1)) as LP. pose proof W_pos as HW. pose proof B_pos as HB. unfold isl in Hr. pose proof B_pow2_half as BH.
  apply wp_bind, wp_dassert_m.
  { rewrite (up_shift _ _ _ _ _ H'). destruct (Z.eqb_spec (partial_high_shift a) 0) as [E|E]; [apply wp_ret; auto|].
    apply wp_bind, wp_lshr; [lia|]. apply wp_ret. apply Z.eqb_eq.
    destruct (lim_last_shift a Hn) as [[E1 E2]|[E1 E2]]; [lia|].
    destruct (lim_half a Hn) as [HB'|[_ HH]].
    { exfalso. assert (2 ^ partial_high_shift a < B) by (unfold B; apply Z.pow_lt_mono_r; lia). lia. }
    destruct Hk' as [->| ->].
    - symmetry. apply Z.div_small. lia.
    - apply (Z.div_unique _ _ 1 (r - 2 ^ (W - 1))); [left|]; lia. }
  apply HQ; auto. set (l := lim a (nlimbs a - 1)) in *.
  destruct Hk' as [->| ->].
  - rewrite Z.mod_small; lia.
  - assert (D : exists q, B = l * q).
    { destruct (lim_last_pow2 a Hn) as (s & Hs & E). fold l in E. exists (2 ^ (W - s)). rewrite E, <- Z.pow_add_r by lia. unfold B. f_equal. lia. }
    destruct D as [q D]. assert (M : r mod l = va - vx - k + l).
    { replace r with ((va - vx - k + l) + (q - 1) * l) by (rewrite Z.mul_sub_distr_r, (Z.mul_comm q l); lia). rewrite Z.mod_add by lia. apply Z.mod_small. lia. }
    rewrite M. lia.
Qed.

Lemma wp_sub_cond : forall a b z (Q : mp * Z -> Prop), mp_ok a -> mp_ok b -> nlimbs b <= nlimbs a ->
  (z = true -> mpval b < 256 ^ mp_len a) ->
  (forall a' k, subpost a (if z then mpval b else 0) a' k -> Q (a', k)) ->
  wp (ct_sub_cond_mp_mp a b (chc z)) Q.
Proof.
  intros a b z Q Ha Hb Hn Hf HQ. unfold ct_sub_cond_mp_mp.
  pose proof (nlimbs_nonneg b) as Nb. pose proof (mpval_bound_B b Hb) as Bb. pose proof (mpval_bound a Ha) as Ba.
  pose proof (mp_len_nonneg a) as La. pf (p256_pos (mp_len a)) as P256.
  assert (BX : 0 <= (if z then mpval b else 0) < 256 ^ mp_len a) by (destruct z; auto; lia).
  assert (BXb : 0 <= (if z then mpval b else 0) < B ^ nlimbs b) by (destruct z; auto; pf (Bpow_pos (nlimbs b)); lia).
  set (X := if z then mpval b else 0) in *. set (A := mpval a) in *.
  apply wp_bind, wp_dassert; [apply Z.leb_le; auto|]. apply wp_mif; intros E.
  { apply Z.eqb_eq in E. apply wp_ret, HQ. split; [auto|]. exists A. split; [split; [auto|split; [apply shape_refl|auto]]|].
    rewrite E, Z.pow_0_r in BXb. lia. }
  apply Z.eqb_neq in E. assert (Nb1 : 0 <= nlimbs b - 1) by lia.
  set (I := fun i a' k => exists L, upinv a A i L a' /\ (k = 0 \/ k = 1) /\ L - k * B ^ i = A mod B ^ i - X mod B ^ i).
  assert (STEP : forall i L k r k', 0 <= i -> L - k * B ^ i = A mod B ^ i - X mod B ^ i -> vlimb A i - vlimb X i - k = r - B * k' ->
     L + r * B ^ i - k' * B ^ (i + 1) = A mod B ^ (i + 1) - X mod B ^ (i + 1)).
  { intros. rewrite !vmod_S, Bpow_S by auto. eapply sub_step_eq; eauto. }
  apply wp_bind. eapply wp_for with (I := fun i '(a', k) => I i a' k); [lia| | |].
  - exists 0. split; [apply upinv_init; auto|]. split; [auto|]. rewrite !vmod_0. lia.
  - intros i [a' k] Hi (L & U & Hk & EL). apply wp_bind. eapply wp_up_load_full; eauto; [lia|apply full_inner; lia|].
    apply wp_bind, wp_load_full; auto; [lia|apply full_inner; lia|]. rewrite limb_vlimb, sel_limb. fold X.
    apply wp_bind, wp_sub_b; try apply vlimb_isl; [lia|]. intros k' r Hk' Hr ER.
    apply wp_bind. eapply wp_up_store_full; eauto; [lia|apply full_inner; lia|]. intros a'' U'. apply wp_ret.
    eexists. split; [exact U'|]. split; auto. eapply STEP; eauto. lia.
  - intros [a' k] HI. apply wp_bind, wp_load; auto; [lia|]. rewrite limb_vlimb, sel_limb. fold X.
    apply wp_bind.
    eapply wp_for with (I := fun i '(a', k, x) => x = vlimb X i /\ (I i a' k /\ i < nlimbs a \/ i = nlimbs a /\ subpost a X a' k)); [lia|split; [auto|left; split; [exact HI|lia]]| |].
    + intros i [[a1 k1] x] Hi [-> [[(L & U & Hk & EL) _]|[C _]]]; [|lia].
      apply wp_bind. eapply wp_up_load; eauto; [lia|lia|].
      apply wp_bind, wp_sub_b; try apply vlimb_isl; [lia|]. intros k' r Hk' Hr ER.
      assert (EX : 0 = vlimb X (i + 1)) by (symmetry; apply (vlimb_out X (nlimbs b)); auto; lia).
      rewrite (upinv_unal _ _ _ _ _ U).
      apply wp_mif; intros C.
      * assert (F : (i + 1) * LB <= mp_len a).
        { apply orb_true_iff in C. destruct C as [C|C]; apply negb_true_iff in C; [apply Z.eqb_neq in C; apply full_inner; lia|apply ne_full; auto; lia]. }
        apply wp_bind. eapply wp_up_store_full; eauto; [lia|]. intros a2 U2. apply wp_ret. split; auto.
        assert (EL2 := STEP i L k1 r k' (Z.le_trans _ _ _ Nb1 (proj1 Hi)) EL ER). destruct (Z.eq_dec i (nlimbs a - 1)) as [Ei|Ei].
        -- right. split; [lia|]. split; auto. eexists. split; [eapply upinv_done; eauto; lia|].
           replace (i + 1) with (nlimbs a) in EL2 by lia.
           rewrite !(Z.mod_small _ (B ^ nlimbs a)) in EL2 by (apply fit_bound_B; auto). fold A. rewrite <- EL2.
           rewrite <- aligned_total; [auto|lia|]. rewrite <- Ei. apply lim_full; auto.
        -- left. split; [|lia]. eexists. split; eauto.
      * apply orb_false_iff in C. destruct C as [C1 C2]. apply negb_false_iff, Z.eqb_eq in C1. subst i.
        pf (fit_limb_last a A) as F1. pf (fit_limb_last a X) as F2.
        eapply wp_sub_high with (F := fun b => ret (b, k', 0)) (va := vlimb A (nlimbs a - 1)) (vx := vlimb X (nlimbs a - 1)) (k := k1); eauto; [lia|lia|].
        intros a2 U2 E2. apply wp_ret. split; auto. right. split; [lia|]. split; auto.
        eexists. split; [eapply upinv_done; eauto; lia|]. rewrite <- lim_total by lia.
        fold A. rewrite (sub_high_eq _ _ L k1 _ _ _ _ _ k' EL E2).
        rewrite <- !fit_split by (auto; lia). auto.
    + intros [[a1 k1] x] [_ [[_ C]|[_ HP]]]; [lia|]. apply wp_ret, HQ. exact HP.
Qed.
Lemma wp_sub_mp : forall a b (Q : mp * Z -> Prop), mp_ok a -> mp_ok b -> nlimbs b <= nlimbs a -> mpval b < 256 ^ mp_len a ->
  (forall a' k, subpost a (mpval b) a' k -> Q (a', k)) -> wp (ct_sub_mp_mp a b) Q.
Proof.
  intros. unfold ct_sub_mp_mp. apply wp_bind, (wp_lc_new true); [reflexivity|]. apply wp_sub_cond; auto.
Qed.

End Facts.
