(** Where the divisions of div_impl.rs panic although the lengths pass the checks. *)
From Coq Require Import ZArith List Bool Lia.
Require Import Verif.Spec Verif.Monad Verif.Base Verif.Wp Verif.Pan Verif.ModelLimb Verif.LimbFacts Verif.LimbFacts2 Verif.LDivFacts
  Verif.ModelBuf Verif.SpecBuf Verif.BufFacts Verif.BufFacts2 Verif.BufFacts3 Verif.BufProofs Verif.CompFacts Verif.UpFacts Verif.ShiftFacts Verif.MulFacts
  Verif.ModelDiv Verif.SpecDiv Verif.DivFacts Verif.DivFacts2 Verif.DivFacts3 Verif.DivFacts4 Verif.DivFacts5 Verif.DivProofs.
Import ListNotations.
Open Scope Z_scope.

Section S.
Context {c : cfg}.

Lemma pan_for_down : forall T lo hi (body : Z -> T -> M T) s, lo < hi -> panics (body (hi - 1) s) -> panics (zfor_down lo hi body s).
Proof.
  intros T lo hi body s H HP. unfold zfor_down. destruct (Z.to_nat (hi - lo)) as [|n] eqn:E; [lia|]. cbn [for_down_aux].
  apply pan_any. intros [] _. apply pan_l. replace (lo + Z.of_nat n) with (hi - 1) by lia. exact HP.
Qed.
Lemma usub_wrap : forall a b x, 0 <= a < b -> b < 2 ^ UW -> returns (usub a b) x -> debug c = false /\ x = 2 ^ UW - (b - a).
Proof.
  intros a b x H HB HR. unfold usub in HR. destruct (b <=? a) eqn:E; [apply Z.leb_le in E; lia|].
  destruct (debug c); [discriminate|]. injection HR as <-. split; [auto|]. symmetry. apply Z.mod_unique with (-1); lia.
Qed.

(** Storing past the end of a buffer. *)
Lemma store_past : forall b i v, mp_ok b -> nlimbs b <= i -> 16 * (i * LB) < 2 ^ UW -> ~ q_ends b (i + 1) -> panics (store_l b i v).
Proof.
  intros b i v Hb Hi HU HE. pose proof LB_pos as LP. pose proof (nlimbs_spec b) as NS. pose proof UW_gt as UG.
  assert (L8 : LB <= 8) by (destruct LB_cases; lia).
  assert (LI : mp_len b <= i * LB). { assert (nlimbs b * LB <= i * LB) by (apply Z.mul_le_mono_nonneg_r; lia). lia. }
  unfold q_ends in HE. rewrite Z.add_simpl_r in HE.
  unfold store_l. apply pan_any. intros [] _. destruct b as [l|l|l]; cbn [mp_len kind_of] in *; pose proof (zlen_nonneg _ l) as ZN.
  - assert (zlen l <> i * LB) by (intros X; apply HE; auto). apply pan_l. unfold be_mp_store_l. apply pan_any. intros [] _.
    apply pan_any. intros e He. apply usub_wrap in He; [|lia|lia]. destruct He as [_ ->].
    apply pan_mif; intros E; [|apply Z.leb_gt in E; lia]. unfold _be_mp_store_l_full. apply pan_any. intros s _. apply pan_l, pan_slice. lia.
  - apply pan_l. unfold le_mp_store_l. destruct (debug c) eqn:D. { apply pan_l. apply pan_dassert; auto. apply Z.ltb_ge. lia. }
    assert (zlen l <> i * LB) by (intros X; apply HE; auto). apply pan_any. intros [] _. apply pan_mif; intros E; [apply Z.leb_le in E; lia|].
    apply pan_any. intros [] _. unfold _le_mp_store_l_high_partial. apply pan_l, pan_slice. lia.
  - apply pan_l. unfold zupd. assert (zlen l <= i) by (apply (Z.mul_le_mono_pos_r _ _ LB); lia).
    destruct (i <? zlen l) eqn:E; [apply Z.ltb_lt in E; lia|]. rewrite andb_false_r. apply pan_panic.
Qed.

Lemma div_l_pan : forall u d v n b, mp_ok u -> ld_ok d v -> 1 <= n -> 256 ^ (n - 1) <= v < 256 ^ n -> mp_ok b -> 1 <= mp_len u ->
  mp_len u + 1 <= mp_len b + n -> n <= mp_len u -> nlimbs b < nlimbs u -> ~ q_ends b (nlimbs u) -> panics (ct_div_mp_l u d (Some b)).
Proof.
  intros u d v n b Hu Hd Hn Hvb Hb HL H1 H2 H3 HE. unfold ct_div_mp_l. fold (nlimbs u). pose proof Hd as (Hv & Ev & _). pose proof LB_pos as LP.
  assert (N1 : 0 < nlimbs u) by (apply nlimbs_lt; lia). pose proof (nlimbs_nonneg b) as N2. pose proof (nlimbs_spec u) as NU.
  apply pan_mif; intros E0. { apply Z.eqb_eq in E0. lia. } clear E0.
  apply pan_wp. apply wp_bind, wp_fls_byte; [rewrite Ev; unfold isl; lia|]. rewrite Ev, (nby_unique v n) by lia.
  apply wp_mif; intros E1. { apply Z.ltb_lt in E1. lia. } clear E1. apply wp_mif; intros E1. { apply Z.ltb_lt in E1. lia. } clear E1.
  apply wp_bind, wp_usub; [lia|]. apply wp_bind, wp_clear_above; auto; [lia|]. intros b' (O & SH & _). apply wp_ret.
  apply pan_l. apply pan_for_down; [lia|]. apply pan_any. intros ul _. apply pan_any. intros [qv r] _. apply pan_l.
  apply store_past; auto.
  - rewrite (shape_nlimbs _ _ SH). lia.
  - destruct Hu as [_ Hu]. lia.
  - intros [X1 X2]. apply HE. destruct SH as [K L]. split; [rewrite <- L, X1; f_equal; lia|]. rewrite <- K. auto.
Qed.

(** A divisor of zero. *)
Lemma load_wrapped : forall b, mp_ok b -> 0 < mp_len b -> panics (load_l b (2 ^ UW - 1)).
Proof.
  intros b Hb HL. pose proof LB_pos as LP. pose proof UW_gt as UG. assert (L8 : LB <= 8) by (destruct LB_cases; lia). destruct Hb as [_ Hb].
  assert (UM : forall a x, 0 <= a -> 16 * a < 2 ^ UW -> returns (usub a ((2 ^ UW - 1) * LB)) x -> x = a + LB).
  { intros a x Ha Hu HR. assert (2 ^ UW - 1 <= (2 ^ UW - 1) * LB). { rewrite <- (Z.mul_1_r (2 ^ UW - 1)) at 1. apply Z.mul_le_mono_nonneg_l; lia. }
    unfold usub in HR. destruct ((2 ^ UW - 1) * LB <=? a) eqn:E; [apply Z.leb_le in E; lia|].
    destruct (debug c); [discriminate|]. injection HR as <-. symmetry. apply Z.mod_unique with (- LB); lia. }
  assert (BIG : 2 ^ UW - 1 <= (2 ^ UW - 1) * LB). { rewrite <- (Z.mul_1_r (2 ^ UW - 1)) at 1. apply Z.mul_le_mono_nonneg_l; lia. }
  unfold load_l. apply pan_any. intros [] _. destruct b as [l|l|l]; cbn [mp_len] in *; pose proof (zlen_nonneg _ l).
  - unfold be_mp_load_l. apply pan_any. intros [] _. apply pan_any. intros e He. apply UM in He; [|lia|lia]. subst e.
    apply pan_mif; intros E; [|apply Z.leb_gt in E; lia]. unfold _be_mp_load_l_full. apply pan_any. intros s _. apply pan_l, pan_slice. lia.
  - unfold le_mp_load_l. apply pan_any. intros [] _. apply pan_mif; intros E; [apply Z.leb_le in E; lia|].
    unfold _le_mp_load_l_high_partial. apply pan_any. intros e He. apply UM in He; [|lia|lia]. subst e.
    apply pan_l, pan_slice. rewrite zlen_zrepeat by lia. lia.
  - apply pan_znth. assert (zlen l <= zlen l * LB). { rewrite <- (Z.mul_1_r (zlen l)) at 1. apply Z.mul_le_mono_nonneg_l; lia. } lia.
Qed.
Lemma new_zero_pan : forall v, mp_ok v -> 0 < mp_len v -> mpval v = 0 -> panics (mp_divisor_new v None).
Proof.
  intros v Hv HL HZ. pose proof LB_pos as LP. unfold mp_divisor_new. apply pan_mif; intros E.
  { exfalso. destruct v; cbn [mp_is_empty mp_len] in *; apply Z.eqb_eq in E; rewrite E in HL; lia. }
  apply pan_l. apply pan_wp. apply wp_find_last_set_byte; auto. rewrite HZ.
  replace (ct_mp_nlimbs ((nbits 0 + 7) / 8)) with 0 by (symmetry; apply ct_mp_nlimbs_unique; change ((nbits 0 + 7) / 8) with 0; lia).
  apply pan_any. intros i Hi. pose proof UW_gt. apply usub_wrap in Hi; [|lia|lia]. destruct Hi as [_ ->]. apply pan_l.
  replace (2 ^ UW - (1 - 0)) with (2 ^ UW - 1) by lia. apply load_wrapped; auto.
Qed.
End S.

Lemma div_l_exact : forall (c : cfg) u d v n b, mp_ok u -> limb_divisor_for d v -> byte_len v n -> mp_ok b -> 1 <= mp_len u ->
  mp_len u + 1 <= mp_len b + n ->
  let works := nlimbs u <= nlimbs b \/ mp_len u < n \/ mp_len b = (nlimbs u - 1) * LB /\ (kind_of b = KBE \/ kind_of b = KLE /\ debug c = false) in
  (works -> yields (ct_div_mp_l u d (Some b)) (fun '(res, q') =>
     res = Ok (mpval u mod v) /\ o_same (Some b) q' /\ q_is q' (mpval u / v))) /\
  (~ works -> panics (ct_div_mp_l u d (Some b))).
Proof.
  intros c u d v n b Hu Hd [N1 N2] Hb HL HQ works. apply ldivisor_ok in Hd. split.
  - intros HW. apply wp_yields. apply wp_div_mp_l with (v := v) (vl := n); auto.
    + destruct HW as [HW|[HW|HW]]; [right; right; left; auto|right; left; auto|right; right; right; auto].
    + intros SH. exfalso. lia.
  - intros HW. apply div_l_pan with v n; auto.
    + destruct (Z.lt_ge_cases (mp_len u) n); [exfalso; apply HW; right; left; auto|lia].
    + destruct (Z.lt_ge_cases (nlimbs b) (nlimbs u)); [auto|exfalso; apply HW; left; auto].
    + intros X. apply HW. right. right. exact X.
Qed.
Lemma div_l_empty : forall (c : cfg) u d q, mp_len u = 0 -> returns (ct_div_mp_l u d q) (Ok 0, q).
Proof.
  intros c u d q HL. unfold ct_div_mp_l. rewrite HL. replace (ct_mp_nlimbs 0) with 0 by (symmetry; apply ct_mp_nlimbs_unique; pose proof LB_pos; lia). reflexivity.
Qed.
Lemma new_zero : forall (c : cfg) v, mp_ok v -> 0 < mp_len v -> mpval v = 0 -> panics (mp_divisor_new v None).
Proof. exact @new_zero_pan. Qed.
