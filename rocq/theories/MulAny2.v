(** Squaring and multiplication by a limb with an [op0_in_len] beyond the end of [op0]. *)
From Coq Require Import ZArith List Bool Lia.
Require Import Verif.Spec Verif.Base Verif.Monad Verif.Wp Verif.Pan Verif.ModelLimb Verif.LimbFacts Verif.LimbFacts2
  Verif.ModelBuf Verif.SpecBuf Verif.BufFacts Verif.BufFacts2 Verif.BufFacts3 Verif.BufProofs Verif.UpFacts Verif.ModelCmp Verif.CmpFacts Verif.ModelMul Verif.MulFacts Verif.MulFacts2
  Verif.ModelAccess Verif.SpecAccess Verif.AccessFacts Verif.AccessProofs Verif.AccessCopy Verif.AddAny Verif.MulAny.
Import ListNotations.
Open Scope Z_scope.

Section Facts.
Context {c : cfg}.

Lemma snd_bind : forall A C (m : M A) (f : A -> M C) x, returns m x -> snd (bind m f) = snd (f x).
Proof. intros A C [t [a|]] f x H; unfold returns in H; cbn in *; [injection H as ->; reflexivity|discriminate]. Qed.
Lemma wp_ret_eq : forall A (m : M A) x, wp m (fun y => y = x) -> returns m x.
Proof. intros A m x H. apply wp_returns in H. destruct H as (y & H & ->). exact H. Qed.
Lemma tick_ret : forall e, returns (tick e) tt.
Proof. reflexivity. Qed.

(** The body of the loop over the limbs of the operand. *)
Definition square_body (nl mask : Z) (j : Z) (op0 : mp) : M mp :=
    let! op0_val := load_l op0 j in
    let! op0 := store_l op0 j 0 in
    let! result_nlimbs := usub nl j in
    let! '(op0, last_prod_high, carry) := zfor 0 (Z.min j result_nlimbs) (fun k '(op0, last_prod_high, carry) =>
      let! op1_val := load_l op0 k in
      let! '(prod_high, prod_low) := ct_mul_l_l op0_val op1_val in
      let! result_val := load_l op0 (j + k) in
      let! '(carry0, last_prod_high) := square_double last_prod_high carry in
      let! '(carry1, result_val) := ct_add_l_l result_val last_prod_high in
      let last_prod_high := prod_high in
      let! s := sub32 W 1 in
      let! carry2 := lshr prod_low s in
      let prod_low := lwmul prod_low 2 in
      let! '(carry3, result_val) := ct_add_l_l result_val prod_low in
      let! carry := ladd carry0 carry1 in
      let! carry := ladd carry carry2 in
      let! carry := ladd carry carry3 in
      dassert (last_prod_high <=? lnot 1) ;;
      dassert ((carry <=? 2) || (last_prod_high <=? lnot 2)) ;;
      let! l := usub result_nlimbs 1 in
      let! op0 := store_hm op0 (k =? l) (j + k) result_val mask in
      ret (op0, last_prod_high, carry)) (op0, 0, 0) in
    mif (result_nlimbs <=? j) then ret op0 else
    let! '(prod_high, prod_low) := ct_mul_l_l op0_val op0_val in
    let! result_val := load_l op0 (2 * j) in
    let! '(carry0, last_prod_high) := square_double last_prod_high carry in
    let! '(carry1, result_val) := ct_add_l_l result_val last_prod_high in
    let last_prod_high := prod_high in
    let! '(carry2, result_val) := ct_add_l_l result_val prod_low in
    let! carry := ladd carry0 carry1 in
    let! carry := ladd carry carry2 in
    let! l := usub result_nlimbs 1 in
    let! op0 := (mif negb (j =? l) then store_l_full op0 (2 * j) result_val
                 else store_l op0 (2 * j) (Z.land result_val mask)) in
    let! '(op0, _, _) := zfor (j + 1) result_nlimbs (fun k '(op0, last_prod_high, carry) =>
      let! result_val := load_l op0 (j + k) in
      let! '(carry0, result_val) := ct_add_l_l result_val last_prod_high in
      let! '(carry1, result_val) := ct_add_l_l result_val carry in
      let! carry := ladd carry0 carry1 in
      let! l := usub result_nlimbs 1 in
      let! op0 := store_hm op0 (k =? l) (j + k) result_val mask in
      ret (op0, 0, carry)) (op0, last_prod_high, carry) in
    ret op0.

Lemma square_over_start : forall a n m, debug c = false -> mp_len a <= n -> returns (partial_high_mask a) m ->
  snd (ct_square_trunc_mp a n) = snd (zfor_down 0 (ct_mp_nlimbs n) (square_body (nlimbs a) m) a).
Proof.
  intros a n m D Hn Hm. unfold ct_square_trunc_mp. rewrite (dassert_release _ _ _ D). rewrite (snd_bind _ _ _ _ m Hm).
  etransitivity; [apply (snd_bind _ _ (clear_bytes_above a n)) with (x := a); apply wp_ret_eq, clear_above_nop; auto|]. unfold square_body. reflexivity.
Qed.

Lemma square_over : forall a n, debug c = false -> mp_ok a -> mp_len a < n -> n + 2 * LB < 2 ^ UW ->
  snd (ct_square_trunc_mp a n) = if in_reach a n then snd (ct_square_trunc_mp a (mp_len a)) else None.
Proof.
  intros a n D Ha Hn HU. pose proof LB_pos as HLB. pose proof (mp_len_nonneg a) as La. pose proof (nlimbs_nonneg a) as N0.
  pose proof (nlimbs_spec a) as NS. assert (n0 : 0 <= n) by lia. pose proof (ct_mp_nlimbs_spec n n0) as NN. pose proof (mpval_bound_B a Ha) as MB.
  assert (NG : nlimbs a <= ct_mp_nlimbs n). { assert (nlimbs a - 1 < ct_mp_nlimbs n); [|lia]. apply (mul_lt_cancel LB); lia. }
  assert (HM : exists m, returns (partial_high_mask a) m).
  { assert (wp (partial_high_mask a) (fun _ => True)) as H by (apply wp_partial_high_mask_any; auto). apply wp_returns in H. destruct H as (m & Hm & _). eauto. }
  destruct HM as [m Hm]. assert (Ln : mp_len a <= n) by lia.
  rewrite (square_over_start a n m D Ln Hm), (square_over_start a (mp_len a) m D (Z.le_refl _) Hm). fold (nlimbs a).
  unfold in_reach. destruct (Z.eqb_spec (ct_mp_nlimbs n) (nlimbs a)) as [E|E]; cbn [orb]; [rewrite E; reflexivity|].
  assert (HI : (ct_mp_nlimbs n - 1 + 1) * LB < 2 ^ UW) by lia.
  unfold zfor_down. replace (Z.to_nat (ct_mp_nlimbs n - 0)) with (S (Z.to_nat (ct_mp_nlimbs n - 1))) by lia. cbn [for_down_aux].
  replace (0 + Z.of_nat (Z.to_nat (ct_mp_nlimbs n - 1))) with (ct_mp_nlimbs n - 1) by lia.
  assert (J0 : 0 <= ct_mp_nlimbs n - 1) by lia.
  pose proof (load_near a (ct_mp_nlimbs n - 1) Ha J0 HI) as LN.
  assert (LX : limb_exists a (ct_mp_nlimbs n - 1) = (ct_mp_nlimbs n =? nlimbs a + 1) && (mp_len a =? nlimbs a * LB) && match kind_of a with KNE => false | _ => true end).
  { unfold limb_exists. rewrite D. cbn [negb]. assert (nlimbs a * LB <= (ct_mp_nlimbs n - 1) * LB) by (apply Z.mul_le_mono_nonneg_r; lia).
    rewrite (proj2 (Z.ltb_ge _ _)) by lia. cbn [orb].
    destruct (Z.eqb_spec (ct_mp_nlimbs n) (nlimbs a + 1)) as [E1|E1]; cbn [andb].
    - rewrite E1. replace (nlimbs a + 1 - 1) with (nlimbs a) by lia. rewrite Z.eqb_sym. destruct (kind_of a); auto.
    - rewrite (proj2 (Z.eqb_neq _ _)); auto. assert ((nlimbs a + 1) * LB <= (ct_mp_nlimbs n - 1) * LB) by (apply Z.mul_le_mono_nonneg_r; lia). lia. }
  rewrite LX in LN. destruct ((ct_mp_nlimbs n =? nlimbs a + 1) && (mp_len a =? nlimbs a * LB) && match kind_of a with KNE => false | _ => true end) eqn:EX; unfold acc in *.
  - rewrite !andb_true_iff, !Z.eqb_eq in EX. destruct EX as [[E1 E2] E3]. rewrite (snd_bind _ _ _ _ tt (tick_ret _)).
    assert (ST : returns (square_body (nlimbs a) m (ct_mp_nlimbs n - 1) a) a).
    { apply wp_ret_eq. unfold square_body. apply wp_bind. eapply wp_mono; [exact LN|]. intros v Ev. cbn beta in Ev.
      assert (v = 0) as ->. { subst v. rewrite E1. replace (nlimbs a + 1 - 1) with (nlimbs a) by lia. unfold limb. rewrite Z.div_small by auto. apply Z.mod_0_l. pose proof B_pos. lia. }
      pose proof (store_near a (ct_mp_nlimbs n - 1) 0 Ha J0 HI isl_0) as SN.
      assert (SO : storable a 0 (ct_mp_nlimbs n - 1) = true). { unfold storable. rewrite LX, D. reflexivity. }
      rewrite SO in SN. unfold acc in SN. apply wp_bind. eapply wp_mono; [exact SN|]. intros a1 (O1 & S1 & V1).
      assert (V2 : mpval a1 = mpval a).
      { rewrite V1, <- Ev. replace (0 mod lim a (ct_mp_nlimbs n - 1)) with 0; [clear; lia|]. symmetry. apply Z.mod_0_l. unfold lim.
        rewrite E1. replace (nlimbs a + 1 - 1) with (nlimbs a) by lia. rewrite Z.min_r by lia. rewrite E2, Z.sub_diag. discriminate. }
      assert (a1 = a) as -> by (symmetry; apply mp_inj; auto).
      rewrite E1. replace (nlimbs a + 1 - 1) with (nlimbs a) by lia. apply wp_bind, wp_usub; [lia|]. rewrite Z.sub_diag.
      apply wp_bind. rewrite Z.min_r by lia. apply wp_for_empty; [lia|]. apply wp_mif; intros C; [apply wp_ret; auto|apply Z.leb_gt in C; lia]. }
    rewrite (snd_bind _ _ _ _ a ST). rewrite E1. replace (nlimbs a + 1 - 1) with (nlimbs a) by lia. rewrite Z.sub_0_r. reflexivity.
  - rewrite (snd_bind _ _ _ _ tt (tick_ret _)). assert (panics (square_body (nlimbs a) m (ct_mp_nlimbs n - 1) a)) as P by (unfold square_body; apply pan_l; exact LN).
    apply (pan_l _ _ _ _ P).
Qed.

Lemma store_full_out : forall b i v, mp_ok b -> 0 <= i -> (i + 1) * LB < 2 ^ UW -> mp_len b < (i + 1) * LB -> isl v -> panics (store_l_full b i v).
Proof.
  intros b i v Hb H0 HU H2 Hv. pose proof LB_pos. pose proof (store_full_acc b i v Hb H0 Hv) as H3. cbv zeta in H3. rewrite index_small in H3 by lia.
  destruct (small_index_same c b i v H0 HU) as (_ & _ & _ & E). rewrite E in H3.
  unfold limb_exists_full in H3. rewrite (proj2 (Z.leb_gt _ _)) in H3 by lia. exact H3.
Qed.

Lemma mul_l_over : forall a n x, debug c = false -> mp_ok a -> mp_len a < n -> n + 2 * LB < 2 ^ UW -> isl x ->
  if n <=? nlimbs a * LB then snd (ct_mul_trunc_mp_l a n x) = snd (ct_mul_trunc_mp_l a (mp_len a) x) else panics (ct_mul_trunc_mp_l a n x).
Proof.
  intros a n x D Ha Hn HU Hx. pose proof LB_pos as HLB. pose proof (mp_len_nonneg a) as La. pose proof (nlimbs_nonneg a) as N0.
  pose proof (nlimbs_spec a) as NS. assert (n0 : 0 <= n) by lia. pose proof (ct_mp_nlimbs_spec n n0) as NN. pose proof (mpval_bound_B a Ha) as MB. pose proof (mpval_bound a Ha) as MA.
  assert (NG : nlimbs a <= ct_mp_nlimbs n). { assert (nlimbs a - 1 < ct_mp_nlimbs n); [|lia]. apply (mul_lt_cancel LB); lia. }
  assert (CL : forall k, mp_len a <= k -> returns (clear_bytes_above a k) a) by (intros k Hk; apply wp_ret_eq, clear_above_nop; auto).
  destruct (Z.leb_spec n (nlimbs a * LB)) as [E|E].
  - assert (EN : ct_mp_nlimbs n = nlimbs a) by (apply ct_mp_nlimbs_unique; lia). assert (L0 : 0 < mp_len a). { assert (nlimbs a <> 0) by (intros Z0; rewrite Z0 in E; lia). assert (1 <= nlimbs a) by lia. nia. }
    unfold ct_mul_trunc_mp_l. rewrite !(dassert_release _ _ _ D).
    assert (HM : exists m, returns (partial_high_mask a) m).
    { assert (wp (partial_high_mask a) (fun _ => True)) as H by (apply wp_partial_high_mask_any; auto). apply wp_returns in H. destruct H as (m & Hm & _). eauto. }
    destruct HM as [m Hm]. rewrite !(snd_bind _ _ _ _ m Hm).
    rewrite (snd_bind _ _ (clear_bytes_above a n) _ a) by (apply CL; lia). rewrite (snd_bind _ _ (clear_bytes_above a (mp_len a)) _ a) by (apply CL; lia).
    rewrite EN. fold (nlimbs a). rewrite (proj2 (Z.eqb_neq n 0)) by lia. rewrite (proj2 (Z.eqb_neq (mp_len a) 0)) by lia. reflexivity.
  - unfold ct_mul_trunc_mp_l. rewrite (dassert_release _ _ _ D). apply pan_any. intros m Hm. apply pan_wp. eapply wp_mono; [apply clear_above_nop; lia|]. intros a1 ->.
    apply pan_mif; intros C; [apply Z.eqb_eq in C; lia|]. apply pan_l.
    assert (NL : nlimbs a < ct_mp_nlimbs n). { apply (mul_lt_cancel LB); lia. }
    eapply (pan_for_at _ (fun i '(b', carry) => exists L, upinv a (mpval a) i L b' /\ isl carry) (nlimbs a)); [reflexivity|lia| | |].
    + exists 0. split; [|apply isl_0]. split; [auto|]. split; [apply shape_refl|]. rewrite Z.pow_0_r, Z.div_1_r. lia.
    + intros i [b carry] Hi (L & U & Ic). assert (LP : 0 < nlimbs a) by lia.
      assert (Hm' : wp (partial_high_mask a) (fun y => y = lim a (nlimbs a - 1) - 1)) by (apply wp_partial_high_mask; auto).
      assert (m = lim a (nlimbs a - 1) - 1) as -> by (apply wp_ret_eq in Hm'; unfold returns in *; congruence).
      apply wp_bind. eapply wp_up_load; eauto; [lia|lia|].
      apply wp_bind, wp_mul_add; auto; try apply vlimb_isl; [apply isl_0|]. intros h r Ih Ir Er. apply wp_bind, wp_usub; [lia|].
      apply wp_bind. eapply wp_store_hm; eauto. intros b' U'. apply wp_ret. eexists. split; [apply U'|]. auto.
    + intros [b carry] (L & U & Ic). destruct U as (O & S & _). assert (HI : (nlimbs a + 1) * LB < 2 ^ UW) by lia.
      pose proof (load_near b (nlimbs a) O N0 HI) as LN. destruct (limb_exists b (nlimbs a)); unfold acc in LN; [|apply pan_l; exact LN].
      apply pan_wp. eapply wp_mono; [exact LN|]. intros v ->. apply pan_wp, wp_mul_add; auto; [apply isl_0|apply limb_isl|]. intros h r Ih Ir Er.
      apply pan_any. intros l Hl. apply pan_l. unfold store_hm.
      assert (NE0 : (nlimbs a =? l) = false).
      { apply Z.eqb_neq. intros El. rewrite <- El in Hl. unfold usub in Hl. destruct (Z.leb_spec 1 (nlimbs a)) as [G1|G1]; [unfold returns, ret in Hl; cbn in Hl; injection Hl; lia|].
        rewrite D in Hl. unfold returns, ret in Hl; cbn in Hl. injection Hl as Hl. assert (nlimbs a = 0) as Z0 by lia. rewrite Z0 in Hl. pose proof UW_gt as UG.
        assert (2 ^ UW - 1 = (0 - 1) mod 2 ^ UW) by (apply Z.mod_unique with (-1); lia). lia. }
      rewrite NE0. cbn [negb orb]. apply tick_pan.
      apply store_full_out; auto. rewrite (shape_len _ _ S). lia.
Qed.

Lemma square_any : forall a n, mp_ok a -> mp_len a < n -> n + 2 * LB < 2 ^ UW ->
  let one_more := nlimbs a * LB < n <= (nlimbs a + 1) * LB /\ mp_len a = nlimbs a * LB /\ kind_of a <> KNE in
  (debug c = true -> panics (ct_square_trunc_mp a n)) /\
  (debug c = false -> n <= nlimbs a * LB \/ one_more -> forall r, returns (ct_square_trunc_mp a n) r <-> returns (ct_square_trunc_mp a (mp_len a)) r) /\
  (debug c = false -> nlimbs a * LB < n -> ~ one_more -> panics (ct_square_trunc_mp a n)).
Proof.
  intros a n Ha G HU. cbv zeta. pose proof LB_pos as HLB. pose proof (mp_len_nonneg a) as La. pose proof (nlimbs_nonneg a) as N0. pose proof (nlimbs_spec a) as NS. assert (Hn : 0 <= n) by lia.
  pose proof (ct_mp_nlimbs_spec n Hn) as NN.
  assert (RE : in_reach a n = true <-> n <= nlimbs a * LB \/ nlimbs a * LB < n <= (nlimbs a + 1) * LB /\ mp_len a = nlimbs a * LB /\ kind_of a <> KNE).
  { unfold in_reach. rewrite orb_true_iff, !andb_true_iff, !Z.eqb_eq.
    assert (K1 : ct_mp_nlimbs n = nlimbs a <-> n <= nlimbs a * LB).
    { split; intros H; [rewrite H in NN; lia|]. apply ct_mp_nlimbs_unique; lia. }
    assert (K2 : ct_mp_nlimbs n = nlimbs a + 1 <-> nlimbs a * LB < n <= (nlimbs a + 1) * LB).
    { split; intros H; [rewrite H in NN; lia|]. apply ct_mp_nlimbs_unique; lia. }
    rewrite K1, K2. destruct (kind_of a); intuition congruence. }
  split; [|split].
  - intros D. unfold ct_square_trunc_mp. apply pan_l, pan_dassert; auto. apply Z.leb_gt. lia.
  - intros D H r. unfold returns. rewrite (square_over a n D Ha G HU), (proj2 RE H). reflexivity.
  - intros D H1 H2. unfold panics. rewrite (square_over a n D Ha G HU). destruct (in_reach a n); auto. exfalso. destruct (proj1 RE eq_refl); [lia|auto].
Qed.

Lemma mul_l_any : forall a n x, mp_ok a -> mp_len a < n -> n + 2 * LB < 2 ^ UW -> 0 <= x < B ->
  (debug c = true -> panics (ct_mul_trunc_mp_l a n x)) /\
  (debug c = false -> n <= nlimbs a * LB -> yields (ct_mul_trunc_mp_l a n x) (fun a' => becomes a a' ((mpval a * x) mod 256 ^ mp_len a))) /\
  (debug c = false -> nlimbs a * LB < n -> panics (ct_mul_trunc_mp_l a n x)).
Proof.
  intros a n x Ha G HU Hx. pose proof (mp_len_nonneg a) as La. split; [|split].
  - intros D. unfold ct_mul_trunc_mp_l. apply pan_l, pan_dassert; auto. apply Z.leb_gt. lia.
  - intros D H. pose proof (mul_l_over a n x D Ha G HU Hx) as MO. rewrite (proj2 (Z.leb_le _ _) H) in MO. apply wp_yields. unfold wp. rewrite MO.
    assert (LL : 0 <= mp_len a <= mp_len a) by lia. apply (wp_mul_mp_l a (mp_len a) x); auto. intros a' HB. rewrite (Z.mod_small (mpval a)) in HB by (apply mpval_bound; auto). exact HB.
  - intros D H. pose proof (mul_l_over a n x D Ha G HU Hx) as MO. rewrite (proj2 (Z.leb_gt _ _) H) in MO. exact MO.
Qed.
End Facts.
