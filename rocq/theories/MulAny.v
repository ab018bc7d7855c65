(** Multiplication with whatever [op0] holds above [op0_in_len], and with an [op0_in_len] beyond the end of [op0]. *)
From Coq Require Import ZArith List Bool Lia.
Require Import Verif.Spec Verif.Base Verif.Monad Verif.Wp Verif.Pan Verif.ModelLimb Verif.LimbFacts Verif.LimbFacts2
  Verif.ModelBuf Verif.SpecBuf Verif.BufFacts Verif.BufFacts2 Verif.BufFacts3 Verif.BufProofs Verif.UpFacts Verif.ModelCmp Verif.CmpFacts Verif.ModelMul Verif.MulFacts Verif.MulFacts2
  Verif.ModelAccess Verif.SpecAccess Verif.AccessFacts Verif.AccessProofs Verif.AccessCopy.
Import ListNotations.
Open Scope Z_scope.

Section Facts.
Context {c : cfg}.

Lemma mul_cond_upto : forall a n b (z : bool) (Q : mp -> Prop), mp_ok a -> mp_ok b -> 0 <= n <= mp_len a ->
  (forall a', becomes a a' (if z then (mpval a mod 256 ^ n * mpval b) mod 256 ^ mp_len a else if mp_len b =? 0 then mpval a else mpval a mod 256 ^ n) -> Q a') ->
  wp (ct_mul_trunc_cond_mp_mp a n b (chc z)) Q.
Proof.
  intros a n b z Q Ha Hb Hn HQ. pose proof (mp_len_nonneg b) as L. pose proof (mpval_bound a Ha) as MA. pf (p256_pos n (proj1 Hn)) as Pn.
  destruct (Z.eqb_spec (mp_len b) 0) as [E|E].
  - apply wp_mul_cond_empty; auto. intros a' H. apply HQ. destruct z; auto. pose proof (mpval_bound b Hb) as MB. rewrite E in MB. change (256 ^ 0) with 1 in MB.
    replace (mpval b) with 0 by lia. rewrite Z.mul_0_r, Z.mod_0_l by lia. auto.
  - apply wp_mul_cond; auto; [lia|]. intros a' H. apply HQ. destruct z; auto.
    rewrite Z.mul_1_r in H. pose proof (Z.mod_le (mpval a) (256 ^ n) (proj1 MA) Pn). pose proof (Z.mod_pos_bound (mpval a) (256 ^ n) Pn).
    rewrite (Z.mod_small (mpval a mod 256 ^ n)) in H by lia. auto.
Qed.

Lemma clear_above_nop : forall a n, mp_len a <= n -> wp (clear_bytes_above a n) (fun a' => a' = a).
Proof.
  intros a n H. unfold clear_bytes_above. apply wp_bind, wp_tick. pose proof LB_pos.
  destruct a as [l|l|l]; cbn [mp_len] in H; apply wp_bind; unfold be_mp_clear_bytes_above, le_mp_clear_bytes_above, ne_mp_clear_bytes_above.
  1,2: apply wp_mif; intros E; [apply wp_ret, wp_ret; auto|apply Z.leb_gt in E; lia].
  cbv zeta. apply wp_mif; intros E; [apply wp_ret, wp_ret; auto|]. apply Z.leb_gt in E.
  assert (zlen l <= n / LB) by (apply Z.div_le_lower_bound; lia). lia.
Qed.

(** The loop over the limbs of the first factor. *)
Definition mul_loop (b : mp) (cond nl mask : Z) (hi : Z) (a : mp) : M mp :=
  zfor_down 0 hi (fun j op0 =>
    let! op0_val := load_l op0 j in
    let! op0 := store_l op0 j 0 in
    let! result_nlimbs := usub nl j in
    let cond_unit := lc_select cond 1 0 in
    let! '(op0, carry, _) := zfor 0 (Z.min (nlimbs b) result_nlimbs) (fun k '(op0, carry, cond_unit) =>
      let! op1_val := load_l b k in
      let op1_val := Z.lor (lc_select cond 0 op1_val) cond_unit in
      let! result_val := load_l op0 (j + k) in
      let! '(carry, result_val) := ct_mul_add_l_l_l_c result_val op0_val op1_val carry in
      let! l := usub result_nlimbs 1 in
      let! op0 := store_hm op0 (k =? l) (j + k) result_val mask in
      ret (op0, carry, 0)) (op0, 0, cond_unit) in
    let! '(op0, _) := zfor (nlimbs b) result_nlimbs (fun k '(op0, carry) =>
      let! result_val := load_l op0 (j + k) in
      let! '(carry, result_val) := ct_add_l_l result_val carry in
      let! l := usub result_nlimbs 1 in
      let! op0 := store_hm op0 (k =? l) (j + k) result_val mask in
      ret (op0, carry)) (op0, carry) in
    ret op0) a.

Lemma len_pos_nempty : forall b, 0 < mp_len b -> mp_is_empty b = false.
Proof.
  intros b H. rewrite empty_nlimbs. pose proof (nlimbs_spec b). pose proof LB_pos. apply Z.eqb_neq. intros E. rewrite E in *. lia.
Qed.
Lemma mul_over_start : forall a n b cond, debug c = false -> mp_len a <= n -> 0 < mp_len b ->
  (forall P, wp (partial_high_mask a) (fun m => wp (mul_loop b cond (nlimbs a) m (ct_mp_nlimbs n) a) P) -> wp (ct_mul_trunc_cond_mp_mp a n b cond) P) /\
  (wp (partial_high_mask a) (fun m => panics (mul_loop b cond (nlimbs a) m (ct_mp_nlimbs n) a)) -> panics (ct_mul_trunc_cond_mp_mp a n b cond)).
Proof.
  intros a n b cond D Hn Lb. unfold ct_mul_trunc_cond_mp_mp, dassert. rewrite D, len_pos_nempty by auto. split.
  - intros P H. apply wp_bind, wp_ret. apply wp_bind, wp_tick. cbv zeta. apply wp_bind. eapply wp_mono; [exact H|]. intros m Hm.
    apply wp_bind. eapply wp_mono; [apply clear_above_nop; auto|]. intros a1 ->. exact Hm.
  - intros H. apply pan_wp, wp_ret. apply pan_wp, wp_tick. cbv zeta. apply pan_wp. eapply wp_mono; [exact H|]. intros m Hm.
    apply pan_wp. eapply wp_mono; [apply clear_above_nop; auto|]. intros a1 ->. exact Hm.
Qed.
Lemma mul_loop_ok : forall a b (z : bool) mask (Q : mp -> Prop), mp_ok a -> mp_ok b -> 0 < mp_len b -> returns (partial_high_mask a) mask ->
  (forall a', becomes a a' ((mpval a * (if z then mpval b else 1)) mod 256 ^ mp_len a) -> Q a') ->
  wp (mul_loop b (chc z) (nlimbs a) mask (nlimbs a) a) Q.
Proof.
  intros a b z mask Q Ha Hb Lb HM HQ. pose proof (mp_len_nonneg a) as La. pose proof (mpval_bound a Ha) as MA.
  assert (wp (ct_mul_trunc_cond_mp_mp a (mp_len a) b (chc z)) Q) as H.
  { apply wp_mul_cond; auto; [lia|]. rewrite (Z.mod_small (mpval a) (256 ^ mp_len a)) by lia. exact HQ. }
  unfold ct_mul_trunc_cond_mp_mp in H. rewrite len_pos_nempty in H by auto. apply wp_bind_inv in H. apply wp_returns in H. destruct H as (u & _ & H).
  apply wp_bind_inv in H. apply wp_returns in H. destruct H as (bb & Hbb & H).
  clear bb Hbb. cbv zeta in H.
  apply wp_bind_inv in H. apply wp_returns in H. destruct H as (m1 & Hm & H). assert (m1 = mask) by (unfold returns in *; congruence). subst m1.
  apply wp_bind_inv in H. apply wp_returns in H. destruct H as (a1 & H1 & H).
  pose proof (clear_above_nop a (mp_len a) (Z.le_refl _)) as CN. apply wp_returns in CN. destruct CN as (a2 & H2 & E2). assert (a1 = a) by (unfold returns in *; congruence). subst a1 a2.
  exact H.
Qed.

(** [in_reach a n]: the first factor has as many limbs as [op0], or one more that reads as zero. *)
Definition in_reach (a : mp) (n : Z) : bool :=
  (ct_mp_nlimbs n =? nlimbs a) || (ct_mp_nlimbs n =? nlimbs a + 1) && (mp_len a =? nlimbs a * LB) && match kind_of a with KNE => false | _ => true end.

Lemma mask_shape : forall a a', same_shape a a' -> partial_high_mask a' = partial_high_mask a.
Proof. intros a a' S. unfold partial_high_mask. rewrite (shape_len _ _ S). destruct a, a'; destruct S as [S1 S2]; try discriminate; reflexivity. Qed.

Lemma mul_over : forall a n b (z : bool), debug c = false -> mp_ok a -> mp_ok b -> 0 < mp_len b -> mp_len a < n -> n + 2 * LB < 2 ^ UW ->
  acc (in_reach a n) (ct_mul_trunc_cond_mp_mp a n b (chc z)) (fun a' => becomes a a' ((mpval a * (if z then mpval b else 1)) mod 256 ^ mp_len a)).
Proof.
  intros a n b z D Ha Hb Lb Hn HU. pose proof LB_pos as HLB. pose proof (mp_len_nonneg a) as La. pose proof (nlimbs_nonneg a) as N0.
  pose proof (nlimbs_spec a) as NS. assert (n0 : 0 <= n) by lia. pose proof (ct_mp_nlimbs_spec n n0) as NN. pose proof (mpval_bound_B a Ha) as MB.
  destruct (mul_over_start a n b (chc z) D ltac:(lia) Lb) as [WP PA].
  assert (NG : nlimbs a <= ct_mp_nlimbs n). { assert (nlimbs a - 1 < ct_mp_nlimbs n); [|lia]. apply (mul_lt_cancel LB); lia. }
  assert (HM : exists m, returns (partial_high_mask a) m).
  { assert (wp (partial_high_mask a) (fun _ => True)) as H by (apply wp_partial_high_mask_any; auto). apply wp_returns in H. destruct H as (m & Hm & _). eauto. }
  destruct HM as [m Hm]. assert (LIFT : forall P : Z -> Prop, P m -> wp (partial_high_mask a) P) by (intros P HP; unfold wp; unfold returns in Hm; rewrite Hm; exact HP).
  unfold in_reach. destruct (Z.eqb_spec (ct_mp_nlimbs n) (nlimbs a)) as [E|E]; cbn [orb].
  { unfold acc. apply WP, LIFT. rewrite E. apply mul_loop_ok; auto. }
  assert (HI : (ct_mp_nlimbs n - 1 + 1) * LB < 2 ^ UW) by lia.
  assert (ST : mul_loop b (chc z) (nlimbs a) m (ct_mp_nlimbs n) a = mul_loop b (chc z) (nlimbs a) m (ct_mp_nlimbs n) a) by reflexivity.
  unfold mul_loop at 2 in ST. unfold zfor_down in ST. replace (Z.to_nat (ct_mp_nlimbs n - 0)) with (S (Z.to_nat (ct_mp_nlimbs n - 1))) in ST by lia. cbn [for_down_aux] in ST.
  replace (0 + Z.of_nat (Z.to_nat (ct_mp_nlimbs n - 1))) with (ct_mp_nlimbs n - 1) in ST by lia.
  assert (J0 : 0 <= ct_mp_nlimbs n - 1) by lia.
  pose proof (load_near a (ct_mp_nlimbs n - 1) Ha J0 HI) as LN.
  assert (LX : limb_exists a (ct_mp_nlimbs n - 1) = (ct_mp_nlimbs n =? nlimbs a + 1) && (mp_len a =? nlimbs a * LB) && match kind_of a with KNE => false | _ => true end).
  { unfold limb_exists. rewrite D. cbn [negb]. assert (nlimbs a * LB <= (ct_mp_nlimbs n - 1) * LB) by (apply Z.mul_le_mono_nonneg_r; lia).
    rewrite (proj2 (Z.ltb_ge _ _)) by lia. cbn [orb].
    destruct (Z.eqb_spec (ct_mp_nlimbs n) (nlimbs a + 1)) as [E1|E1]; cbn [andb].
    - rewrite E1. replace (nlimbs a + 1 - 1) with (nlimbs a) by lia. rewrite Z.eqb_sym. destruct (kind_of a); auto.
    - rewrite (proj2 (Z.eqb_neq _ _)); auto. assert ((nlimbs a + 1) * LB <= (ct_mp_nlimbs n - 1) * LB) by (apply Z.mul_le_mono_nonneg_r; lia). lia. }
  rewrite LX in LN. destruct ((ct_mp_nlimbs n =? nlimbs a + 1) && (mp_len a =? nlimbs a * LB) && match kind_of a with KNE => false | _ => true end) eqn:EX; unfold acc in *.
  - rewrite !andb_true_iff, !Z.eqb_eq in EX. destruct EX as [[E1 E2] E3]. apply WP, LIFT. rewrite ST. apply wp_bind, wp_tick.
    apply wp_bind. apply wp_bind. eapply wp_mono; [exact LN|]. intros v Ev. cbn beta in Ev.
    assert (v = 0) as ->. { subst v. rewrite E1. replace (nlimbs a + 1 - 1) with (nlimbs a) by lia. unfold limb. rewrite Z.div_small by auto. apply Z.mod_0_l. pose proof B_pos. lia. }
    pose proof (store_near a (ct_mp_nlimbs n - 1) 0 Ha J0 HI isl_0) as SN.
    assert (SO : storable a 0 (ct_mp_nlimbs n - 1) = true). { unfold storable. rewrite LX, D. reflexivity. }
    rewrite SO in SN. unfold acc in SN. apply wp_bind. eapply wp_mono; [exact SN|]. intros a1 (O1 & S1 & V1).
    assert (V2 : mpval a1 = mpval a).
    { rewrite V1, <- Ev. replace (0 mod lim a (ct_mp_nlimbs n - 1)) with 0; [clear; lia|]. symmetry. apply Z.mod_0_l. unfold lim.
      rewrite E1. replace (nlimbs a + 1 - 1) with (nlimbs a) by lia. rewrite Z.min_r by lia. rewrite E2, Z.sub_diag. discriminate. }
    rewrite E1. replace (nlimbs a + 1 - 1) with (nlimbs a) by lia. apply wp_bind, wp_usub; [lia|]. rewrite Z.sub_diag.
    pose proof (nlimbs_nonneg b). apply wp_bind. rewrite Z.min_r by lia. apply wp_for_empty; [lia|]. apply wp_bind, wp_for_empty; [lia|]. apply wp_ret.
    pose proof (mul_loop_ok a1 b z m (fun a' => becomes a a' ((mpval a * (if z then mpval b else 1)) mod 256 ^ mp_len a)) O1 Hb Lb) as ML.
    rewrite (mask_shape a a1 S1) in ML. specialize (ML Hm). rewrite (shape_nlimbs _ _ S1), (shape_len _ _ S1), V2 in ML.
    unfold mul_loop, zfor_down in ML. rewrite Z.sub_0_r in ML. apply ML.
    intros a' (O' & S' & V'). split; [auto|]. split; [eapply shape_trans; eauto|auto].
  - apply PA, LIFT. rewrite ST. apply pan_any. intros [] _. apply pan_l, pan_l. exact LN.
Qed.

Lemma mul_any : forall a n b (z : bool) m, mp_ok a -> mp_ok b -> 0 <= n -> n + 2 * LB < 2 ^ UW ->
  m = ct_mul_trunc_cond_mp_mp a n b (chc z) \/ z = true /\ m = ct_mul_trunc_mp_mp a n b ->
  let one_more := nlimbs a * LB < n <= (nlimbs a + 1) * LB /\ mp_len a = nlimbs a * LB /\ kind_of a <> KNE in
  let result := yields m (fun a' => becomes a a' (if z then (mpval a mod 256 ^ n * mpval b) mod 256 ^ mp_len a
                                                  else if mp_len b =? 0 then mpval a else mpval a mod 256 ^ n)) in
  (n <= mp_len a -> result) /\
  (mp_len a < n -> debug c = true -> panics m) /\
  (mp_len a < n -> debug c = false -> mp_len b = 0 \/ n <= nlimbs a * LB \/ one_more -> result) /\
  (mp_len a < n -> debug c = false -> mp_len b <> 0 -> nlimbs a * LB < n -> ~ one_more -> panics m).
Proof.
  intros a n b z m Ha Hb Hn HU Hm. cbv zeta. pose proof LB_pos as HLB. pose proof (mp_len_nonneg a) as La. pose proof (mp_len_nonneg b) as Lb. pose proof (nlimbs_nonneg a) as N0.
  pose proof (nlimbs_spec a) as NS. pose proof (ct_mp_nlimbs_spec n Hn) as NN. pose proof (mpval_bound a Ha) as MA. pose proof (mpval_bound b Hb) as MB.
  assert (WP : forall P, wp (ct_mul_trunc_cond_mp_mp a n b (chc z)) P -> yields m P).
  { intros P H. apply wp_yields. destruct Hm as [->|[-> ->]]; auto. unfold ct_mul_trunc_mp_mp. apply wp_bind, (wp_lc_new true); [reflexivity|]. exact H. }
  assert (PA : panics (ct_mul_trunc_cond_mp_mp a n b (chc z)) -> panics m).
  { intros H. destruct Hm as [->|[-> ->]]; auto. unfold ct_mul_trunc_mp_mp. apply pan_wp, (wp_lc_new true); [reflexivity|]. exact H. }
  assert (RE : mp_len a < n -> in_reach a n = true <-> n <= nlimbs a * LB \/ nlimbs a * LB < n <= (nlimbs a + 1) * LB /\ mp_len a = nlimbs a * LB /\ kind_of a <> KNE).
  { intros G. unfold in_reach. rewrite orb_true_iff, !andb_true_iff, !Z.eqb_eq.
    assert (K1 : ct_mp_nlimbs n = nlimbs a <-> n <= nlimbs a * LB).
    { split; intros H; [rewrite H in NN; lia|]. apply ct_mp_nlimbs_unique; lia. }
    assert (K2 : ct_mp_nlimbs n = nlimbs a + 1 <-> nlimbs a * LB < n <= (nlimbs a + 1) * LB).
    { split; intros H; [rewrite H in NN; lia|]. apply ct_mp_nlimbs_unique; lia. }
    rewrite K1, K2. destruct (kind_of a); intuition congruence. }
  split; [|split; [|split]].
  - intros G. apply WP, mul_cond_upto; auto.
  - intros G D. apply PA. unfold ct_mul_trunc_cond_mp_mp. apply pan_l, pan_dassert; auto. apply Z.leb_gt. lia.
  - intros G D H. assert (PP : 256 ^ mp_len a <= 256 ^ n) by (apply Z.pow_le_mono_r; lia). rewrite !(Z.mod_small (mpval a) (256 ^ n)) by lia.
    apply WP. destruct (Z.eqb_spec (mp_len b) 0) as [E|E].
    + rewrite E in MB. change (256 ^ 0) with 1 in MB. replace (mpval b) with 0 by lia. rewrite Z.mul_0_r, Z.mod_0_l by lia.
      assert (wp (ct_mul_trunc_cond_mp_mp a (mp_len a) b (chc z)) (fun a' => becomes a a' (if z then 0 else mpval a))) as W by (apply wp_mul_cond_empty; auto; lia).
      unfold ct_mul_trunc_cond_mp_mp in *. unfold dassert in *. rewrite D in *. rewrite empty_nlimbs in *.
      assert (EN : nlimbs b = 0). { unfold nlimbs. rewrite E. apply ct_mp_nlimbs_unique; lia. } rewrite EN in *. exact W.
    + pose proof (mul_over a n b z D Ha Hb ltac:(lia) G HU) as MO. rewrite (proj2 (RE G)) in MO by tauto. unfold acc in MO.
      eapply wp_mono; [exact MO|]. intros a' H'. destruct z; auto. rewrite Z.mul_1_r, Z.mod_small in H' by lia. auto.
  - intros G D E H1 H2. apply PA. pose proof (mul_over a n b z D Ha Hb ltac:(lia) G HU) as MO. destruct (in_reach a n) eqn:ER; [|exact MO].
    exfalso. destruct (proj1 (RE G) eq_refl) as [ER'|ER']; [lia|auto].
Qed.
End Facts.
