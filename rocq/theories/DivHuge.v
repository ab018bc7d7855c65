(** Proofs of the theorems in ThmDiv2.v on exponents and shift lengths for which the computation of the dividend's length overflows. *)
From Coq Require Import ZArith Zpow_facts List Bool Lia.
Require Import Verif.Spec Verif.Monad Verif.Base Verif.Wp Verif.Pan Verif.Wx Verif.ModelLimb Verif.LimbFacts Verif.LimbFacts2 Verif.ModelBuf Verif.SpecBuf
  Verif.BufFacts Verif.BufFacts2 Verif.BufFacts3 Verif.BufProofs Verif.ModelShift Verif.ShiftFacts Verif.ModelDiv Verif.SpecDiv Verif.DivFacts Verif.DivFacts2
  Verif.DivFacts3 Verif.DivFacts4 Verif.DivFacts8 Verif.DivFacts12 Verif.DivProofs.
Import ListNotations.
Open Scope Z_scope.

Section S.
Context {c : cfg}.

(** Storing at the index 0 - 1. *)
Lemma store_wrapped : forall b v, mp_ok b -> panics (store_l b (2 ^ UW - 1) v).
Proof.
  intros b v Hb. pose proof LB_pos as LP. pose proof UW_gt as UG. assert (L8 : LB <= 8) by (destruct LB_cases; lia). destruct Hb as [_ Hb].
  assert (UM : forall a x, 0 <= a -> 16 * a < 2 ^ UW -> returns (usub a ((2 ^ UW - 1) * LB)) x -> x = a + LB).
  { intros a x Ha Hu HR. assert (2 ^ UW - 1 <= (2 ^ UW - 1) * LB). { rewrite <- (Z.mul_1_r (2 ^ UW - 1)) at 1. apply Z.mul_le_mono_nonneg_l; lia. }
    unfold usub in HR. destruct ((2 ^ UW - 1) * LB <=? a) eqn:E; [apply Z.leb_le in E; lia|].
    destruct (debug c); [discriminate|]. injection HR as <-. symmetry. apply Z.mod_unique with (- LB); lia. }
  assert (BIG : 2 ^ UW - 1 <= (2 ^ UW - 1) * LB). { rewrite <- (Z.mul_1_r (2 ^ UW - 1)) at 1. apply Z.mul_le_mono_nonneg_l; lia. }
  unfold store_l. apply pan_any. intros [] _. destruct b as [l|l|l]; cbn [mp_len] in *; pose proof (zlen_nonneg _ l); apply pan_l.
  - unfold be_mp_store_l. apply pan_any. intros [] _. apply pan_any. intros e He. apply UM in He; [|lia|lia]. subst e.
    apply pan_mif; intros E; [|apply Z.leb_gt in E; lia]. unfold _be_mp_store_l_full. apply pan_any. intros s _. apply pan_l, pan_slice. lia.
  - unfold le_mp_store_l. apply pan_any. intros [] _. apply pan_mif; intros E; [apply Z.leb_le in E; lia|].
    apply pan_any. intros [] _. unfold _le_mp_store_l_high_partial. apply pan_l, pan_slice. lia.
  - unfold zupd. assert (zlen l <= zlen l * LB) by (rewrite <- (Z.mul_1_r (zlen l)) at 1; apply Z.mul_le_mono_nonneg_l; lia).
    destruct (2 ^ UW - 1 <? zlen l) eqn:E; [apply Z.ltb_lt in E; lia|]. rewrite andb_false_r. apply pan_panic.
Qed.

Lemma virtual_pan : forall k, debug c = true -> 0 <= k -> 2 ^ UW <= k + 9 -> panics (virtual_pow2_len k).
Proof.
  intros k D Hk H. unfold virtual_pow2_len. destruct (Z_lt_le_dec (k + 1) (2 ^ UW)).
  - apply pan_wp, wp_uadd; [lia|]. apply pan_l, uadd_pan; auto. lia.
  - apply pan_l, uadd_pan; auto.
Qed.
Lemma wp_virtual_wrap : forall k (Q : Z -> Prop), debug c = false -> 0 <= k < 2 ^ UW -> 2 ^ UW <= k + 8 -> Q 0 -> wp (virtual_pow2_len k) Q.
Proof.
  intros k Q D Hk H HQ. pose proof UW_big as UB. change (2 ^ 32) with 4294967296 in UB. unfold virtual_pow2_len. destruct (Z_lt_le_dec (k + 1) (2 ^ UW)).
  - apply wp_bind, wp_uadd; [lia|]. apply wp_bind, wp_uadd_wrap; [auto|lia|]. apply wp_bind, wp_usub; [lia|]. apply wp_ret.
    rewrite Z.div_small by lia. auto.
  - apply wp_bind, wp_uadd_wrap; [auto|lia|]. apply wp_bind, wp_uadd; [lia|]. apply wp_bind, wp_usub; [lia|]. apply wp_ret.
    rewrite Z.div_small by lia. auto.
Qed.

Lemma pow2_huge_pan : forall k r d q, 0 <= k < 2 ^ UW -> ~ pow2_exp_ok k -> mp_ok r -> 1 <= dv_len d -> q_ok q -> panics (ct_div_pow2_mp k r d q).
Proof.
  intros k r d q Hk HE Hr HD Hq. unfold pow2_exp_ok in HE. unfold ct_div_pow2_mp. destruct (debug c) eqn:D.
  { apply pan_l, virtual_pan; auto; [lia|]. destruct (Z_lt_le_dec (k + 9) (2 ^ UW)); [tauto|auto]. }
  apply pan_wp, wp_virtual_wrap; auto; [destruct (Z_lt_le_dec (k + 8) (2 ^ UW)); [tauto|auto]|].
  pose proof (mp_len_nonneg r) as RL.
  apply pan_wp. apply wp_mono with (Q := fun b => b = false).
  { unfold q_too_short. destruct q as [b|]; [|apply wp_ret; auto]. pose proof (mp_len_nonneg b). apply wp_mif; intros E; apply wp_ret; auto. apply Z.ltb_lt in E. lia. }
  intros ? ->. apply pan_mif; intros E; [apply Z.ltb_lt in E; lia|].
  apply pan_wp, wp_clear_above; auto; [lia|]. intros r0 (O0 & S0 & E0). apply pan_any. intros uh _.
  apply pan_mif; intros E1; [|apply Z.ltb_ge in E1; lia].
  apply pan_any. intros i Hi. apply usub_neg in Hi.
  - apply pan_l. subst i. replace (ct_mp_nlimbs 0) with 0; [|unfold ct_mp_nlimbs; rewrite Z.div_small; auto; pose proof LB_pos; lia].
    rewrite Z.sub_0_r. apply store_wrapped; auto.
  - unfold ct_mp_nlimbs. rewrite Z.div_small; [lia|]. pose proof LB_pos. lia.
  - pose proof LB_pos. lia.
Qed.
End S.

Lemma pow2_huge : forall (c : cfg) k r d D n q, 0 <= k < 2 ^ UW -> ~ pow2_exp_ok k -> mp_ok r -> divisor_for d D -> byte_len D n -> q_ok q ->
  panics (ct_div_pow2_mp k r d q) /\ panics (ct_mod_pow2_mp k r d).
Proof.
  intros c k r d D n q Hk HE Hr Hd Hn Hq. apply divisor_ok in Hd. destruct Hd as [Hd E]. pose proof (divisor_len _ _ _ Hd E Hn) as EL.
  assert (1 <= dv_len d) by (destruct Hn; lia). split; [apply pow2_huge_pan; auto|]. unfold ct_mod_pow2_mp. apply pan_l, pow2_huge_pan; auto. exact I.
Qed.

(** ** Shift lengths *)
Lemma lsh_huge_debug : forall (c : cfg) u a e d q, debug c = true -> 2 ^ UW <= a + e -> 
  panics (ct_div_lshifted_mp_mp u a e d q) /\ panics (ct_mod_lshifted_mp_mp u a e d).
Proof.
  intros c u a e d q D H. assert (X : forall q, panics (ct_div_lshifted_mp_mp u a e d q)).
  { intros q0. unfold ct_div_lshifted_mp_mp. apply pan_any. intros [] _. apply pan_l, uadd_pan; auto. }
  split; [apply X|]. unfold ct_mod_lshifted_mp_mp. apply pan_l, X.
Qed.

Lemma wp_lsh_huge : forall (c : cfg) u a e d q (P : result unit div_err * mp * option mp -> Prop), debug c = false ->
  mp_ok u -> 0 <= a <= mp_len u -> 0 <= e < 2 ^ UW -> 2 ^ UW <= a + e -> q_ok q -> a + e - 2 ^ UW < dv_len d ->
  match q with Some b => a + e - 2 ^ UW <= mp_len b + dv_len d | None => True end ->
  (forall u' q', becomes u u' 0 -> o_same q q' -> q_is q' 0 -> P (Ok tt, u', q')) -> wp (ct_div_lshifted_mp_mp u a e d q) P.
Proof.
  intros c u a e d q P D Hu Ha He HO Hq HL HQ HP. unfold ct_div_lshifted_mp_mp. pose proof (mp_len_nonneg u) as L0. pose proof (proj2 Hu) as LU.
  apply wp_bind, wp_dassert; [apply Z.leb_le; lia|]. apply wp_bind, wp_uadd_wrap; [auto|lia|].
  apply wp_bind. apply wp_mono with (Q := fun b => b = false).
  { unfold q_too_short. destruct q as [b|]; [|apply wp_ret; auto]. apply wp_mif; intros E; apply wp_ret; auto. apply Z.ltb_lt in E. lia. }
  intros ? ->. apply wp_mif; intros E; [apply Z.ltb_lt in E; lia|]. clear E.
  apply wp_mif; intros E; [|apply Z.ltb_ge in E; lia]. clear E.
  assert (M8 : exists s, 8 * mp_len u <= s < 2 ^ UW /\ (8 * e) mod 2 ^ UW = s).
  { exists (8 * e - 7 * 2 ^ UW). split; [lia|]. symmetry. apply Z.mod_unique with 7; lia. }
  destruct M8 as (s & Hs & ES).
  apply wp_bind. unfold umul, ovf. destruct (Z.ltb_spec (8 * e) (2 ^ UW)); [lia|]. rewrite andb_false_r, D. apply wp_ret. rewrite ES.
  apply wp_bind, wp_lshift; [auto|split; lia|]. intros u' HB.
  apply wp_bind, wp_q_clear; [auto|lia|]. intros q' Hq'. apply wp_ret. apply HP.
  - replace ((mpval u * 2 ^ s) mod 256 ^ mp_len u) with 0 in HB; auto. symmetry. change 256 with (2 ^ 8). rewrite <- Z.pow_mul_r by lia.
    replace s with (s - 8 * mp_len u + 8 * mp_len u) by lia. rewrite Z.pow_add_r by lia. rewrite Z.mul_assoc. apply Z.mod_mul.
    pose proof (Z.pow_pos_nonneg 2 (8 * mp_len u)). lia.
  - destruct q, q'; cbn; tauto.
  - destruct q, q'; cbn; try tauto. destruct Hq' as (_ & _ & ->). apply Z.mod_1_r.
Qed.
Lemma lsh_huge_release : forall (c : cfg) u a e d D n q, debug c = false ->
  mp_ok u -> 0 <= a <= mp_len u -> 0 <= e < 2 ^ UW -> 2 ^ UW <= a + e -> divisor_for d D -> byte_len D n -> q_ok q -> a + e - 2 ^ UW < n ->
  yields (ct_mod_lshifted_mp_mp u a e d) (fun '(res, u') => res = Ok tt /\ becomes u u' 0) /\
  (match q with Some b => a + e - 2 ^ UW <= mp_len b + n | None => True end ->
   yields (ct_div_lshifted_mp_mp u a e d q) (fun '(res, u', q') => res = Ok tt /\ becomes u u' 0 /\ o_same q q' /\ q_is q' 0)).
Proof.
  intros c u a e d D n q DB Hu Ha He HO Hd Hn Hq HL. apply divisor_ok in Hd. destruct Hd as [Hd E]. pose proof (divisor_len _ _ _ Hd E Hn) as EL.
  split; intros; apply wp_yields.
  - unfold ct_mod_lshifted_mp_mp. apply wp_bind, wp_lsh_huge; auto; [exact I|lia|]. intros u' q' H1 H2 H3. apply wp_ret. auto.
  - apply wp_lsh_huge; auto; [lia|destruct q; auto; lia].
Qed.

Lemma p256_mod3 : forall e, 0 <= e -> 256 ^ e mod 3 = 1.
Proof. intros e He. rewrite Zpow_facts.Zpower_mod by lia. change (256 mod 3) with 1. rewrite Z.pow_1_l by auto. reflexivity. Qed.
Lemma lsh_huge_refuted : forall (c : cfg), debug c = false ->
  exists u a e v d u', mp_ok u /\ mp_ok v /\ a = mp_len u /\ 0 <= e < 2 ^ UW /\ returns (mp_divisor_new v None) (Ok d) /\
    returns (ct_mod_lshifted_mp_mp u a e d) (Ok tt, u') /\ mpval u' <> (mpval u * 256 ^ e) mod mpval v.
Proof.
  intros c DB.
  assert (OU : mp_ok (BE [1])) by (split; [repeat constructor; cbn; lia|pose proof UW_big; change (2 ^ 32) with 4294967296 in *; cbn; lia]).
  assert (OV : mp_ok (BE [3])) by (split; [repeat constructor; cbn; lia|pose proof UW_big; change (2 ^ 32) with 4294967296 in *; cbn; lia]).
  assert (ND : exists d, returns (mp_divisor_new (BE [3]) None) (Ok d)).
  { destruct c as [[] [] [] []]; eexists; vm_compute; reflexivity. }
  destruct ND as [d ND]. pose proof UW_big as UB. change (2 ^ 32) with 4294967296 in UB.
  assert (M1 : mpval (BE [1]) = 1) by (destruct c as [[] [] [] []]; reflexivity). assert (M3 : mpval (BE [3]) = 3) by (destruct c as [[] [] [] []]; reflexivity).
  assert (DF : divisor_for d 3). { exists (BE [3]), None. split; [auto|]. split; [cbn; pose proof B_pos; lia|]. split; [auto|]. rewrite M3. reflexivity. }
  destruct (lsh_huge_release c (BE [1]) 1 (2 ^ UW - 1) d 3 1 None) as [Y _]; auto; try lia; try (cbn; lia).
  { split; [lia|]. split; vm_compute; congruence. }
  destruct Y as ([r u'] & R & -> & HB).
  exists (BE [1]), 1, (2 ^ UW - 1), (BE [3]), d, u'. repeat split; auto; try lia; try apply OU; try apply OV.
  destruct HB as (_ & _ & ->). rewrite M1, M3, Z.mul_1_l, p256_mod3 by lia. lia.
Qed.
