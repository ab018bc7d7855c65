(** Proofs of the buffer theorems in the shape stated in ThmBuf.v. *)
From Coq Require Import ZArith List Bool Lia.
Require Import Verif.Spec Verif.Base Verif.Monad Verif.Wp Verif.ModelLimb Verif.LimbFacts Verif.LimbFacts2 Verif.LimbProofs
  Verif.ModelBuf Verif.SpecBuf Verif.BufFacts Verif.BufFacts2 Verif.BufFacts3 Verif.Pan Verif.CompFacts.
Import ListNotations.
Open Scope Z_scope.

Lemma wp_yields : forall A (m : M A) (P : A -> Prop), wp m P -> yields m P.
Proof. intros A m P H. apply wp_returns in H. exact H. Qed.

Lemma load_correct : forall (c : cfg) b i, mp_ok b -> 0 <= i -> i * LB < mp_len b ->
  returns (load_l b i) ((mpval b / B ^ i) mod B) /\
  ((i + 1) * LB <= mp_len b -> returns (load_l_full b i) ((mpval b / B ^ i) mod B)).
Proof.
  intros. split; [apply wp_ret_eq, wp_load|intros; apply wp_ret_eq, wp_load_full]; auto.
  split; auto. apply nlimbs_lt; auto.
Qed.

Lemma store_correct : forall (c : cfg) b i v, mp_ok b -> 0 <= i -> i * LB < mp_len b ->
  0 <= v < B -> v < 256 ^ (mp_len b - i * LB) ->
  let new := mpval b + (v - (mpval b / B ^ i) mod B) * B ^ i in
  yields (store_l b i v) (fun b' => becomes b b' new) /\
  ((i + 1) * LB <= mp_len b -> yields (store_l_full b i v) (fun b' => becomes b b' new)).
Proof.
  intros. assert (0 <= i < nlimbs b) by (split; auto; apply nlimbs_lt; auto).
  split; [apply wp_yields, wp_store|intros; apply wp_yields, wp_store_full]; auto.
  - unfold lim. destruct (Z.min_spec LB (mp_len b - i * LB)) as [[? ->]|[? ->]]; [rewrite <- B_256|]; lia.
Qed.

Lemma store_digits_correct : forall (c : cfg) b i v b', mp_ok b -> 0 <= i -> i * LB < mp_len b ->
  0 <= v < B -> v < 256 ^ (mp_len b - i * LB) -> returns (store_l b i v) b' ->
  same_shape b b' /\ forall j, 0 <= j -> (mpval b' / B ^ j) mod B = if j =? i then v else (mpval b / B ^ j) mod B.
Proof.
  intros c b i v b' Hb Hi HL Hv Hf HR. assert (N : 0 <= i < nlimbs b) by (split; auto; apply nlimbs_lt; auto).
  destruct (store_correct c b i v Hb Hi HL Hv Hf) as [(r & R & S) _]. unfold returns in *. rewrite R in HR. inversion HR; subst r.
  split; [apply S|]. intros j Hj. assert (P : store_post b i v b') by exact S.
  destruct (Z.eqb_spec j i).
  - subst j. exact (store_limb b b' i v Hi Hv P).
  - refine (store_limb_other b b' i j v Hi Hj _ Hv P); auto.
Qed.

Lemma clear_bytes_correct : forall (c : cfg) b n, mp_ok b -> 0 <= n ->
  yields (clear_bytes_above b n) (fun b' => becomes b b' (mpval b mod 256 ^ n)) /\
  (n <= mp_len b -> yields (clear_bytes_below b n) (fun b' => becomes b b' (mpval b - mpval b mod 256 ^ n))).
Proof. intros. split; [apply wp_yields, wp_clear_above|intros; apply wp_yields, wp_clear_below]; auto. Qed.

Lemma clear_below_past_bytes : forall (c : cfg) b n, mp_ok b -> supports_unaligned b = true -> mp_len b <= n ->
  yields (clear_bytes_below b n) (fun b' => becomes b b' 0).
Proof.
  intros c b n Hb Hu Hn. pose proof (mp_len_nonneg b). apply wp_yields, wp_clear_below; auto; [lia|]. intros b' (O & S & V). split; [auto|split; [auto|]].
  rewrite V, clear_all_mod by auto. lia.
Qed.
Lemma clear_below_past_bytes' : forall (c : cfg) b n, mp_ok b -> (exists l, b = BE l \/ b = LE l) -> mp_len b <= n ->
  yields (clear_bytes_below b n) (fun b' => becomes b b' 0).
Proof. intros c b n Hb (l & H) Hn. apply clear_below_past_bytes; auto. destruct H as [-> | ->]; reflexivity. Qed.
Lemma clear_below_past_limbs : forall (c : cfg) l n, mp_ok (NE l) -> mp_len (NE l) < n -> n + LB < 2 ^ UW ->
  (n mod LB = 0 -> yields (clear_bytes_below (NE l) n) (fun b' => becomes (NE l) b' 0)) /\
  (n mod LB <> 0 -> l <> [] -> yields (clear_bytes_below (NE l) n)
     (fun b' => becomes (NE l) b' (mpval (NE l) - mpval (NE l) mod 256 ^ (mp_len (NE l) - LB + n mod LB)))) /\
  (n mod LB <> 0 -> l = [] -> panics (clear_bytes_below (NE l) n)).
Proof.
  intros c l n Hb Hn HU. pose proof LB_pos as LP. pose proof (mp_len_nonneg (NE l)) as L0. pose proof (Z.div_mod n LB) as DM.
  pose proof (Z.mod_pos_bound n LB LP) as MB. split; [|split].
  - intros E. apply wp_yields, wp_clear_below; auto; [lia|]. intros b' (O & S & V). split; [auto|split; [auto|]].
    rewrite V, clear_all_mod by (auto; lia). lia.
  - intros E Hl. set (n' := mp_len (NE l) - LB + n mod LB). assert (LL : 1 <= zlen l). { destruct l; [congruence|]. rewrite zlen_cons. pose proof (zlen_nonneg _ l). lia. }
    assert (N0 : 0 <= n' <= mp_len (NE l)). { unfold n'. cbn [mp_len]. nia. }
    assert (NM : n' mod LB = n mod LB). { unfold n'. cbn [mp_len]. replace (zlen l * LB - LB + n mod LB) with (n mod LB + (zlen l - 1) * LB) by lia.
      rewrite Z.mod_add by lia. apply Z.mod_small. lia. }
    assert (NK : ct_mp_nlimbs n' = zlen l). { apply ct_mp_nlimbs_unique; unfold n'; cbn [mp_len]; nia. }
    assert (NG : zlen l <= ct_mp_nlimbs n). { unfold ct_mp_nlimbs. apply Z.div_le_lower_bound; [lia|]. cbn [mp_len] in Hn. lia. }
    fold n'. apply wp_yields. unfold clear_bytes_below. apply wp_bind, wp_tick, wp_bind.
    assert (EQ : ne_mp_clear_bytes_below l n = ne_mp_clear_bytes_below l n').
    { unfold ne_mp_clear_bytes_below. rewrite !unlimbs_ret by lia. rewrite NM. cbn [bind ret]. rewrite NK, !Z.min_r by lia. reflexivity. }
    rewrite EQ. apply wp_ne_clear_below; [auto|lia|right; lia|]. intros l' H. apply wp_ret. auto.
  - intros E ->. assert (NG : 0 <= ct_mp_nlimbs n) by (unfold ct_mp_nlimbs; apply Z.div_pos; lia).
    unfold clear_bytes_below. apply pan_any. intros [] _. apply pan_l. unfold ne_mp_clear_bytes_below.
    apply pan_wp. rewrite unlimbs_ret by lia. apply wp_ret. rewrite Z.min_r by (cbn; lia).
    apply pan_l, pan_mif; intros EM; [|apply negb_false_iff, Z.eqb_eq in EM; lia].
    apply pan_any. intros k _. apply pan_l. unfold znth. destruct (Z.leb_spec 0 k); [|apply pan_panic]. change (zlen (@nil Z)) with 0.
    destruct (Z.ltb_spec k 0); [lia|]. apply pan_panic.
Qed.
Lemma clear_below_huge : forall (c : cfg) l n, mp_ok (NE l) -> 0 <= n < 2 ^ UW -> 2 ^ UW <= n + LB ->
  (debug c = true -> panics (clear_bytes_below (NE l) n)) /\
  (debug c = false -> n + LB = 2 ^ UW -> yields (clear_bytes_below (NE l) n) (fun b' => becomes (NE l) b' 0)) /\
  (debug c = false -> n + LB <> 2 ^ UW -> panics (clear_bytes_below (NE l) n)).
Proof.
  intros c l n Hb Hn HU. pose proof LB_pos as LP. pose proof UW_big as UB. change (2 ^ 32) with 4294967296 in UB.
  assert (L8 : LB <= 8) by (destruct LB_cases; lia). split; [|split].
  - intros D. unfold clear_bytes_below. apply pan_any. intros [] _. apply pan_l. unfold ne_mp_clear_bytes_below, unlimbs. apply pan_l, pan_l, uadd_pan; auto.
  - intros D E. assert (LD : 2 ^ UW = 2 ^ UW / LB * LB).
    { unfold UW. destruct LB_cases as [-> | ->]; destruct (usize64 c); reflexivity. }
    assert (ND : n = (2 ^ UW / LB - 1) * LB) by lia. assert (NM : n mod LB = 0) by (rewrite ND; apply Z.mod_mul; lia).
    assert (UN : unlimbs n = ret (ct_mp_nlimbs n)).
    { unfold unlimbs, uadd, ovf. destruct (Z.ltb_spec (n + LB) (2 ^ UW)); [lia|]. rewrite andb_false_r, D, E, Z.mod_same by lia. cbn.
      unfold usub. cbn [Z.leb Z.compare]. rewrite D. cbn. unfold ct_mp_nlimbs. rewrite E. do 2 f_equal.
      replace ((0 - 1) mod 2 ^ UW) with (2 ^ UW - 1) by (apply Z.mod_unique with (-1); lia). reflexivity. }
    apply wp_yields. unfold clear_bytes_below. apply wp_bind, wp_tick, wp_bind. apply wp_ne_clear_below_gen; auto; [lia|].
    intros l' (O & S & V). apply wp_ret. split; [auto|split; [auto|]]. rewrite V, clear_all_mod by (auto; destruct Hb as [_ Hb]; lia). lia.
  - intros D E. unfold clear_bytes_below. apply pan_any. intros [] _. apply pan_l. unfold ne_mp_clear_bytes_below, unlimbs.
    apply pan_wp, wp_bind, wp_uadd_wrap; [auto|lia|]. apply wp_bind, wp_usub; [lia|]. apply wp_ret. rewrite (Z.div_small (_ - 1)) by lia.
    pose proof (zlen_nonneg _ l). rewrite Z.min_l by lia.
    assert (LD : 2 ^ UW = 2 ^ UW / LB * LB).
    { unfold UW. destruct LB_cases as [-> | ->]; destruct (usize64 c); reflexivity. }
    apply pan_l, pan_mif; intros EM.
    + apply pan_any. intros k HK. unfold usub in HK. cbn [Z.leb Z.compare] in HK. rewrite D in HK. injection HK as <-.
      replace ((0 - 1) mod 2 ^ UW) with (2 ^ UW - 1) by (apply Z.mod_unique with (-1); lia).
      apply pan_l. unfold znth. destruct Hb as [_ Hb]. cbn [mp_len] in Hb. assert (zlen l <= zlen l * LB) by nia.
      destruct (Z.ltb_spec (2 ^ UW - 1) (zlen l)); [lia|]. rewrite andb_false_r. apply pan_panic.
    + exfalso. apply negb_false_iff, Z.eqb_eq in EM. apply Z.div_exact in EM; [|lia]. assert (n / LB < 2 ^ UW / LB) by (apply Z.div_lt_upper_bound; lia). nia.
Qed.

Lemma clear_bits_correct : forall (c : cfg) b n, mp_ok b -> 0 <= n < 2 ^ UW ->
  yields (ct_clear_bits_above_mp b n) (fun b' => becomes b b' (mpval b mod 2 ^ n)) /\
  yields (clear_bits_above_mp b n) (fun b' => becomes b b' (mpval b mod 2 ^ n)) /\
  yields (ct_clear_bits_below_mp b n) (fun b' => becomes b b' (mpval b - mpval b mod 2 ^ n)) /\
  yields (clear_bits_below_mp b n) (fun b' => becomes b b' (mpval b - mpval b mod 2 ^ n)).
Proof.
  intros. repeat split; apply wp_yields.
  - apply wp_ct_clear_bits_above; auto.
  - apply wp_clear_bits_above; auto; lia.
  - apply wp_ct_clear_bits_below; auto.
  - apply wp_clear_bits_below; auto; lia.
Qed.

Lemma copy_from_correct : forall (c : cfg) dst src, mp_ok dst -> mp_ok src -> mpval src < 256 ^ mp_len dst ->
  yields (copy_from dst src) (fun d => becomes dst d (mpval src)).
Proof. intros. apply wp_yields, wp_copy_from; auto. intros. split; auto. Qed.

Lemma copy_from_cond_correct : forall (c : cfg) dst src cond, mp_ok dst -> mp_ok src -> mpval src < 256 ^ mp_len dst ->
  (cond = false \/ mp_len dst <= mp_len src) ->
  yields (copy_from_cond dst src (chc cond)) (fun d => becomes dst d (if cond then mpval src else mpval dst)).
Proof. intros. apply wp_yields, wp_copy_from_cond; auto. intros. split; auto. Qed.

Lemma test_bit_correct : forall (c : cfg) b i, mp_ok b -> 0 <= i ->
  returns (test_bit b i) (chc (Z.testbit (mpval b) i)).
Proof. intros. apply wp_ret_eq, wp_test_bit; auto. Qed.

Lemma set_bit_correct : forall (c : cfg) b i v, mp_ok b -> 0 <= i < 8 * mp_len b ->
  yields (set_bit_to b i v) (fun b' => mp_ok b' /\ same_shape b b' /\
    forall j, 0 <= j -> Z.testbit (mpval b') j = if j =? i then v else Z.testbit (mpval b) j).
Proof. intros. apply wp_yields, wp_set_bit_to; auto. Qed.

Lemma mp_last_set_bit_correct : forall (c : cfg) b, mp_ok b ->
  exists n, returns (ct_find_last_set_bit_mp b) (chc (negb (mpval b =? 0)), n) /\ is_bit_width (mpval b) n.
Proof.
  intros c b Hb. exists (nbits (mpval b)). split; [apply wp_ret_eq, wp_find_last_set_bit; auto|].
  apply nbits_is_width, mpval_nonneg; auto.
Qed.

Lemma mp_first_set_bit_correct : forall (c : cfg) b, mp_ok b ->
  exists n, returns (ct_find_first_set_bit_mp b) (chc (negb (mpval b =? 0)), n) /\
    (mpval b = 0 \/ is_lowest_set_bit (mpval b) n).
Proof.
  intros c b Hb.
  assert (X : wp (ct_find_first_set_bit_mp b) (fun '(z, n) => z = chc (negb (mpval b =? 0)) /\ (mpval b = 0 \/ is_lowest_set_bit (mpval b) n))).
  { apply wp_find_first_set_bit; auto.
    - intros E. rewrite E. auto.
    - intros r N F. rewrite (proj2 (Z.eqb_neq _ _) N). split; auto. right. apply is_ffs_lowest; auto. }
  apply wp_returns in X. destruct X as ([z n] & R & -> & H). eauto.
Qed.

Lemma mp_last_set_limb_byte_correct : forall (c : cfg) b, mp_ok b ->
  yields (find_last_set_limb b) (fun n => 0 <= n /\ forall m, 0 <= m -> (mpval b < B ^ m <-> n <= m)) /\
  yields (find_last_set_byte_mp b) (fun n => 0 <= n /\ forall m, 0 <= m -> (mpval b < 256 ^ m <-> n <= m)).
Proof.
  intros c b Hb. pose proof (mpval_nonneg b Hb) as V0. split; apply wp_yields.
  - apply wp_find_last_set_limb; auto. intros k (K0 & KV & KL) _. split; auto. intros m Hm. split; intros.
    + destruct (Z.le_gt_cases k m); auto. destruct KL as [->|KL]; [lia|]. exfalso. apply KL. unfold vlimb.
      assert (B ^ m <= B ^ (k - 1)) by (apply Z.pow_le_mono_r; [apply B_pos|lia]).
      rewrite Z.div_small by lia. apply Z.mod_0_l. pose proof B_pos. lia.
    + assert (B ^ k <= B ^ m) by (apply Z.pow_le_mono_r; [apply B_pos|lia]). lia.
  - apply wp_find_last_set_byte; auto. split; [|intros; rewrite nbytes_le_iff; auto; reflexivity].
    pose proof (nbits_nonneg (mpval b)). apply Z.div_pos; lia.
Qed.

Lemma swap_correct : forall (c : cfg) a b cond, mp_ok a -> mp_ok b -> mp_len a = mp_len b ->
  yields (ct_swap_cond_mp a b (chc cond)) (fun '(a', b') =>
    becomes a a' (if cond then mpval b else mpval a) /\ becomes b b' (if cond then mpval a else mpval b)).
Proof.
  intros c a b cond Ha Hb HL. apply wp_yields, wp_swap_cond; auto.
  - unfold nlimbs. congruence.
  - intros _. pose proof (mpval_bound a Ha). pose proof (mpval_bound b Hb). rewrite HL in *. lia.
Qed.

Lemma ct_mp_nlimbs_lt : forall (c : cfg) n i, 0 <= n -> 0 <= i -> i * LB < n -> i < ct_mp_nlimbs n.
Proof.
  intros c n i Hn Hi HL. pose proof (ct_mp_nlimbs_spec n Hn). pose proof LB_pos.
  destruct (Z.lt_ge_cases i (ct_mp_nlimbs n)); auto. pose proof (mul_le_l LB (ct_mp_nlimbs n) i). lia.
Qed.
Lemma ct_mp_nlimbs_mono : forall (c : cfg) n m, 0 <= n -> n <= m -> ct_mp_nlimbs n <= ct_mp_nlimbs m.
Proof. intros. unfold ct_mp_nlimbs. apply Z.div_le_mono; [apply LB_pos|lia]. Qed.

Lemma segs_len_nonneg : forall (c : cfg) segs, 0 <= segs_len segs.
Proof. induction segs; cbn [segs_len]; [lia|]. pose proof (mp_len_nonneg a). lia. Qed.

(** The integer held after storing [v] at limb [i]. *)
Definition upd_limb {c : cfg} (X : Z) (iv : Z * Z) : Z := X + (snd iv - (X / B ^ fst iv) mod B) * B ^ fst iv.
Definition composite_stores {c : cfg} (cs : list cseg) (ops : list (Z * Z)) : M (list cseg) :=
  fold_left (fun m iv => let! cs := m in composite_store cs (fst iv) (snd iv)) ops (ret cs).

Lemma composite_correct : forall (c : cfg) k segs, segs_ok k segs ->
  yields (composite_new segs) (fun cs =>
    composite_segments cs = segs /\
    forall ops, Forall (fun iv => 0 <= fst iv /\ fst iv * LB < segs_len segs /\ 0 <= snd iv < B /\
                                  snd iv < 256 ^ (segs_len segs - fst iv * LB)) ops ->
      yields (composite_stores cs ops) (fun cs' =>
        let X := fold_left upd_limb ops (segs_val segs) in
        (forall i, 0 <= i -> i * LB < segs_len segs -> returns (composite_load cs' i) ((X / B ^ i) mod B)) /\
        Forall2 (fun b b' => same_shape b b' /\ mp_ok b') segs (composite_segments cs') /\
        segs_val (composite_segments cs') = X)).
Proof.
  intros c k segs HS. apply wp_yields. apply wp_composite_new with (k := k); auto. intros cs HI HL HV HG.
  split; auto. intros ops HO. apply wp_yields.
  assert (NL : forall i, 0 <= i -> i * LB < segs_len segs -> 0 <= i < ct_mp_nlimbs (segs_len segs)).
  { intros. split; auto. apply ct_mp_nlimbs_lt; auto using segs_len_nonneg. }
  enough (G : wp (composite_stores cs ops) (fun cs' => Forall2 cs_same cs cs' /\ cval cs' = fold_left upd_limb ops (segs_val segs))).
  { eapply wp_mono; [exact G|]. cbv zeta. intros cs' [F2 V']. split; [|].
    - intros. apply wp_ret_eq. eapply wp_composite_load; [eapply cinv_same; eauto|rewrite (same_clen cs cs') by auto; rewrite HL; auto|]. rewrite V'. reflexivity.
    - destruct cs as [|s0 r0].
      + inversion F2. rewrite <- HG in *. subst cs'. assert (O0 : ops = []).
        { destruct ops as [|[i v] ops]; auto. exfalso. apply Forall_cons_iff in HO. destruct HO as [(H0 & H1 & _) _]. cbn [fst snd] in H0, H1. rewrite <- HL in H1. cbn [clen] in H1.
          pose proof LB_pos. assert (0 <= i * LB) by (apply mul_nn; lia). lia. }
        subst ops. cbn [fold_left]. split; [constructor|reflexivity].
      + rewrite <- V'. eapply composite_out; eauto. congruence. }
  unfold composite_stores. rewrite <- HV.
  assert (G : forall ops m X, Forall (fun iv => 0 <= fst iv /\ fst iv * LB < segs_len segs /\ 0 <= snd iv < B /\
                                  snd iv < 256 ^ (segs_len segs - fst iv * LB)) ops ->
    wp m (fun cs' => Forall2 cs_same cs cs' /\ cval cs' = X) ->
    wp (fold_left (fun m iv => let! cs := m in composite_store cs (fst iv) (snd iv)) ops m)
      (fun cs' => Forall2 cs_same cs cs' /\ cval cs' = fold_left upd_limb ops X)).
  { clear ops HO. induction ops as [|[i v] ops IH]; intros m X HO Hm; cbn [fold_left]; auto.
    apply Forall_cons_iff in HO. destruct HO as [(Hi & HiL & Hv & Hf) HO']. apply IH; auto.
    apply wp_bind. eapply wp_mono; [exact Hm|]. intros cs1 [F1 V1]. cbn [fst snd] in *.
    eapply wp_composite_store; [eapply cinv_same; eauto|rewrite (same_clen cs cs1) by auto; rewrite HL; auto| |].
    - unfold clim. rewrite (same_clen cs cs1) by auto. rewrite HL.
      destruct (Z.min_spec LB (segs_len segs - i * LB)) as [[? ->]|[? ->]]; [rewrite <- B_256|]; lia.
    - intros cs' F2 V2. split; [eapply same_trans; eauto|]. rewrite V2, V1. reflexivity. }
  apply G; auto. apply wp_ret. split; auto. eapply cinv_refl; eauto.
Qed.

Lemma native_correct : forall (c : cfg) sz b, mp_ok b -> (sz = 1 \/ sz = 2 \/ sz = 4 \/ sz = 8) ->
  (sz <= mp_len b ->
   returns (try_into_native sz b) (if mpval b <? 256 ^ sz then Ok (mpval b) else Err tt)) /\
  (forall v, sz <= mp_len b -> 0 <= v < 256 ^ sz -> yields (set_to_native sz b v) (fun b' => becomes b b' v)).
Proof.
  intros c sz b Hb Hs. split.
  - intros HL. apply wp_ret_eq, wp_try_into_native; auto.
    + apply ct_mp_nlimbs_mono; lia.
    + intros. rewrite (proj2 (Z.ltb_lt _ _)); auto.
    + intros. rewrite (proj2 (Z.ltb_ge _ _)); auto.
  - intros. apply wp_yields, wp_set_to_native; auto.
Qed.
