(** Facts about euclid_impl.rs (ModelEuclid.v): one row of a batch's matrix applied to the residues modulo n. *)
From Coq Require Import ZArith List Bool Lia.
Require Import Verif.Spec Verif.Base Verif.Monad Verif.Wp Verif.ModelLimb Verif.LimbFacts Verif.LimbFacts2
  Verif.ModelBuf Verif.SpecBuf Verif.BufFacts Verif.BufFacts2 Verif.BufFacts3 Verif.UpFacts Verif.ModelCmp Verif.CmpFacts
  Verif.ModelAdd Verif.AddFacts Verif.ModelMont Verif.MontFacts Verif.ModelEuclid Verif.GcdBound Verif.EuclidFacts Verif.EuclidFacts2.
Import ListNotations.
Open Scope Z_scope.

Section Facts.
Context {c : cfg}.

Lemma wp_mod_sub : forall bo u x y na nb (Q : Z * Z -> Prop), 0 <= bo <= 2 -> isl u -> isl x -> isl y ->
  (forall bo' r, 0 <= bo' <= 2 -> isl r -> u - sel na x - sel nb y - bo = r - B * bo' -> Q (bo', r)) ->
  wp (mod_row_sub bo u (x, y) (chc na, chc nb)) Q.
Proof.
  intros bo u x y na nb Q Ib Hu Hx Hy HQ. unfold mod_row_sub. cbn [fst snd]. pose proof B_gt as BG.
  rewrite !land_chc_r by auto. fold (sel na x). fold (sel nb y). pose proof (sel_isl na x Hx) as S1. pose proof (sel_isl nb y Hy) as S2.
  apply wp_bind, wp_sub_l; auto. intros r2 Ir2 E3. set (fb := b2z (u <? sel na x)) in *. assert (Hfb : fb = 0 \/ fb = 1) by (unfold fb; destruct (u <? sel na x); auto).
  unfold isl in *. clearbody fb.
  apply wp_bind, wp_dassert. { destruct Hfb as [->| ->]; [auto|]. apply orb_true_iff. right. apply Z.leb_le. clear - E3 Hu S1. lia. }
  apply wp_bind, wp_sub_l; auto. intros r3 Ir3 E4. set (gb := b2z (r2 <? sel nb y)) in *. assert (Hgb : gb = 0 \/ gb = 1) by (unfold gb; destruct (r2 <? sel nb y); auto).
  unfold isl in *. clearbody gb.
  assert (K2 : fb = 1 -> gb = 1 -> 2 <= r3) by (clear - E3 E4 Hu S1 S2; intros -> ->; lia).
  apply wp_bind, wp_dassert_m.
  { apply wp_bind, wp_ladd; [clear - Hfb Hgb BG; lia|]. apply wp_ret. destruct Hfb as [->| ->], Hgb as [->| ->]; auto. apply orb_true_iff. right. apply Z.leb_le. auto. }
  apply wp_bind, wp_dassert. { apply Z.leb_le. lia. }
  apply wp_bind, wp_sub_l; [auto|unfold isl; clear - Ib BG; lia|]. intros r4 Ir4 E5. unfold isl in Ir4.
  assert (HB : b2z (r3 <? bo) + fb + gb <= 2 /\ 0 <= b2z (r3 <? bo)).
  { destruct (Z.ltb_spec r3 bo) as [L|L]; cbn [b2z]; [|clear - Hfb Hgb; lia]. clear - L Ib K2 Hfb Hgb. lia. }
  set (b0 := b2z (r3 <? bo)) in *. clearbody b0.
  apply wp_bind, wp_ladd; [clear - HB Hfb Hgb BG; lia|]. apply wp_bind, wp_ladd; [clear - HB Hfb Hgb BG; lia|].
  apply wp_bind, wp_dassert; [apply Z.leb_le; clear - HB; lia|]. apply wp_ret. apply HQ.
  - clear - HB Hfb Hgb; lia.
  - exact Ir4.
  - clear - E3 E4 E5; lia.
Qed.

Lemma rinv_next : forall a b X Y k st st' r, 0 <= k -> small a -> small b -> rinv a b X Y k st -> rst_ok st' -> isl r ->
  (a mod B) * vlimb X k + (b mod B) * vlimb Y k + rval st - sel (negz a) (plimb X k) - sel (negz b) (plimb Y k) = r + B * rval st' ->
  rinv a b X Y (k + 1) st' /\ r = vlimb (a * X + b * Y) k.
Proof.
  intros a b X Y k st st' r Hk Ha Hb (S0 & E0) S1 Ir E. unfold plimb in E.
  pose proof (Bpow_pos k Hk) as Pk. pose proof (Bpow_S k Hk) as PS.
  assert (E1 : rlhs a b X Y (k + 1) = (a * X + b * Y) mod B ^ k + B ^ k * (r + B * rval st')).
  { rewrite rlhs_S by auto. rewrite E0, <- E. ring. }
  set (V := a * X + b * Y) in *.
  assert (E2 : V mod B ^ (k + 1) = V mod B ^ k + r * B ^ k).
  { destruct (rlhs_cong a b X Y (k + 1)) as [t Et]; [lia|auto|auto|]. fold V in Et. apply (mod_eq_of _ _ (rval st' - t)).
    - pose proof (vmod_bound V k Hk). unfold isl in Ir. pf (mul_le_l (B ^ k) r (B - 1)). pf (mul_nn (B ^ k) r). rewrite PS. lia.
    - assert (V = rlhs a b X Y (k + 1) - B ^ (k + 1) * t) by lia. rewrite H at 1. rewrite E1, PS. ring. }
  assert (Er : r = vlimb V k).
  { rewrite vmod_S in E2 by auto. assert (B ^ k * r = B ^ k * vlimb V k) by lia. apply Z.mul_reg_l in H; lia. }
  split; [|auto]. split; [auto|]. fold V. rewrite E1, Er, vmod_S, PS by auto. ring.
Qed.

(** The reduction kernel, as in MontFacts3, but for any power of two. *)
Definition kin (s Sl N m j L : Z) (k : redc_kernel) : Prop :=
  exists X, rkst s m X k /\ 2 ^ s * L + B ^ j * X = Sl + m * (N mod B ^ (j + 1)).

(** A row after limbs 0 .. [j] went in. *)
Definition rmod (a b s X Y N m j L : Z) (st : rowst) (k : redc_kernel) : Prop :=
  rinv a b X Y (j + 1) st /\ kin s ((a * X + b * Y) mod B ^ (j + 1)) N m j L k.

Lemma wp_mod_start : forall a b s X Y N g (Q : rowst * redc_kernel -> Prop), 0 <= s <= W - 2 -> small a -> small b -> isl g ->
  lwmul (vlimb N 0) g = B - 1 -> (forall st k m, rmod a b s X Y N m 0 0 st k -> Q (st, k)) ->
  wp (mod_row_start (vlimb X 0, vlimb Y 0) (trow_of a b s) (vlimb N 0) g) Q.
Proof.
  intros a b s X Y N g Q Hs Ha Hb Hg Hi HQ. unfold mod_row_start, trow_of. cbn [tf tg tsh fst snd]. pose proof B_gt as BG.
  pose proof (vlimb_isl X 0) as IX. pose proof (vlimb_isl Y 0) as IY. pose proof isl_0 as I0.
  apply wp_bind, wp_mul_l; [apply isl_mod|auto|]. intros fc r0 Ifc Ir0 E0.
  apply wp_bind, wp_mul_add; auto; [apply isl_mod|]. intros gc r1 Igc Ir1 E1.
  apply wp_bind, wp_add_l; auto. intros c1 c0 Hc1 Ic0 E2.
  apply wp_bind, wp_dassert. { apply Z.leb_le. lia. }
  rewrite (Z.mod_small s) by (destruct W_cases; lia).
  destruct (rinv_next a b X Y 0 (mk_rowst 0 0 0) (mk_rowst c0 c1 0) r1) as [RI ER]; auto; [lia|apply rinv_init| | |].
  { split; [auto|cbn; lia]. }
  { rewrite !plimb_0. unfold rval. cbn [rs_c0 rs_c1 rs_b]. assert (SZ : forall t, sel t 0 = 0) by (intros []; auto). rewrite !SZ.
    transitivity (fc * B + r0 - r0 + (gc * B + r1)); [rewrite <- E0, <- E1; ring|]. transitivity (r1 + B * (fc + gc)); [ring|]. rewrite E2. ring. }
  apply wp_bind, wp_redc_start; auto; [pose proof W_pos; lia|apply vlimb_isl|]. intros m k HK. apply wp_ret. apply (HQ _ _ m).
  split; [exact RI|]. exists (r1 + m * vlimb N 0). split; [auto|]. rewrite ER. unfold vlimb. rewrite Z.pow_0_r, !Z.div_1_r, Z.mul_0_r.
  change (0 + 1) with 1. rewrite Z.pow_1_r. lia.
Qed.

Lemma wp_mod_limb : forall a b s X Y N m j L st k (Q : rowst * redc_kernel * Z -> Prop), 0 <= j -> small a -> small b -> rmod a b s X Y N m j L st k ->
  (forall st' k' r, isl r -> rmod a b s X Y N m (j + 1) (L + r * B ^ j) st' k' -> Q (st', k', r)) ->
  wp (mod_row_limb st k (vlimb N (j + 1)) (vlimb X (j + 1), vlimb Y (j + 1)) (vlimb X j, vlimb Y j) (trow_of a b s) (chc (negz a), chc (negz b))) Q.
Proof.
  intros a b s X Y N m j L st k Q Hj Ha Hb (RI & (XX & HK & HE)) HQ. unfold mod_row_limb, trow_of. cbn [tf tg fst snd]. pose proof B_gt as BG.
  pose proof RI as ((I0 & I1 & Ib) & _).
  apply wp_bind, wp_mul_l; [apply isl_mod|apply vlimb_isl|]. intros fc r0 Ifc Ir0 E0.
  apply wp_bind, wp_mul_add; auto; [apply isl_mod|apply vlimb_isl|]. intros gc r1 Igc Ir1 E1.
  apply wp_bind, wp_add_c; auto. intros c1' c0' Hc1' Ic0' E2.
  apply wp_bind, wp_mod_sub; auto; try apply vlimb_isl. intros bo' r Hbo Ir E3.
  destruct (rinv_next a b X Y (j + 1) st (mk_rowst c0' c1' bo') r) as [RI' ER]; auto; [lia| | |].
  { split; [auto|cbn; lia]. }
  { rewrite !plimb_S by auto. unfold rval. cbn [rs_c0 rs_c1 rs_b].
    transitivity (fc * B + r0 - r0 + (gc * B + r1) + B * rs_c1 st - rs_b st - sel (negz a) (vlimb X j) - sel (negz b) (vlimb Y j)); [rewrite <- E0, <- E1; ring|].
    transitivity (B * (fc + gc + rs_c1 st) + (r1 - sel (negz a) (vlimb X j) - sel (negz b) (vlimb Y j) - rs_b st)); [ring|]. rewrite E2, E3. ring. }
  apply wp_bind. eapply wp_redc_update; [exact HK|auto|apply vlimb_isl|]. intros X' k' v HK' Iv EV. apply wp_ret. apply HQ; [auto|].
  split; [exact RI'|]. exists X'. split; [auto|]. rewrite !(vmod_S _ (j + 1)) by lia. rewrite <- ER.
  rewrite (Bpow_S j) in * by auto. set (P := B ^ j) in *. set (V := a * X + b * Y) in *.
  transitivity (2 ^ s * L + P * (2 ^ s * v + B * X')); [ring|]. rewrite EV.
  transitivity (2 ^ s * L + P * XX + B * P * (r + m * vlimb N (j + 1))); [ring|]. rewrite HE. ring.
Qed.

(** The head limb. *)
Lemma head_div : forall a b X Y p st, 0 <= p -> small a -> small b -> rinv a b X Y (p + 1) st -> 0 <= X < B ^ (p + 1) -> 0 <= Y < B ^ (p + 1) ->
  (a * X + b * Y) / B ^ (p + 1) = rval st - sel (negz a) (vlimb X p) - sel (negz b) (vlimb Y p).
Proof.
  intros a b X Y p st Hp Ha Hb (_ & E) HX HY. pose proof (Bpow_pos (p + 1)) as PP. pose proof (Bpow_pos p Hp) as P0. pose proof B_gt as BG.
  assert (M : forall Z0, 0 <= Z0 < B ^ (p + 1) -> (B * Z0) mod B ^ (p + 1) = B * Z0 - B ^ (p + 1) * vlimb Z0 p).
  { intros Z0 HZ. rewrite Z.mod_eq by lia. rewrite (Bpow_S p) at 1 2 by lia. rewrite Z.div_mul_cancel_l by lia. unfold vlimb.
    rewrite (Z.mod_small (Z0 / B ^ p)). - rewrite Bpow_S by lia. auto.
    - split; [apply Z.div_pos; lia|]. apply Z.div_lt_upper_bound; [lia|]. rewrite Bpow_S in HZ by lia. lia. }
  unfold rlhs in E. rewrite (Z.mod_small X), (Z.mod_small Y), (M X HX), (M Y HY), (mod_negz a Ha), (mod_negz b Hb) in E by auto.
  set (P := B ^ (p + 1)) in *. set (V := a * X + b * Y) in *.
  specialize (PP ltac:(clear - Hp; lia)). pose proof (Z.mod_pos_bound V P PP) as MB. apply (div_eq_of _ _ _ (V mod P)); [exact MB|].
  unfold V at 1. unfold sel in *. destruct (negz a), (negz b); cbn [b2z] in E; lia.
Qed.

Lemma wp_mod_head : forall a b X Y p st (Q : Z -> Prop), 0 <= p -> small a -> small b -> rinv a b X Y (p + 1) st -> 0 <= X < B ^ (p + 1) -> 0 <= Y < B ^ (p + 1) ->
  - 2 ^ (W - 2) <= (a * X + b * Y) / B ^ (p + 1) < 2 ^ (W - 2) -> Q (((a * X + b * Y) / B ^ (p + 1)) mod B) ->
  wp (mod_row_head st (vlimb X p, vlimb Y p) (chc (negz a), chc (negz b))) Q.
Proof.
  intros a b X Y p st Q Hp Ha Hb RI HX HY HR HQ. pose proof (head_div a b X Y p st Hp Ha Hb RI HX HY) as ED.
  set (H := (a * X + b * Y) / B ^ (p + 1)) in *. clearbody H. destruct RI as ((I0 & I1 & Ib) & _). unfold rval in ED. unfold mod_row_head.
  pose proof B_pow2_half as BH. assert (WC : 32 <= W) by (destruct W_cases; lia).
  assert (PH : 2 ^ (W - 1) = 2 * 2 ^ (W - 2)) by (rewrite <- Z.pow_succ_r by lia; f_equal; lia). pose proof (pow2_gt0 (W - 2)) as P2.
  apply wp_bind, wp_mod_sub; auto; try apply vlimb_isl. intros bo r Hbo Ir E.
  assert (EH : H = r + B * (rs_c1 st - bo)) by (rewrite ED; lia). clear ED E. unfold isl in Ir.
  assert (D : bo - rs_c1 st = b2z (H <? 0)).
  { destruct (Z.ltb_spec H 0); cbn [b2z].
    - destruct (Z.le_gt_cases (bo - rs_c1 st) 0). { pf (mul_nn B (rs_c1 st - bo)). lia. }
      destruct (Z.le_gt_cases 2 (bo - rs_c1 st)). { pf (mul_le_l B 2 (bo - rs_c1 st)). lia. } lia.
    - destruct (Z.le_gt_cases 1 (bo - rs_c1 st)). { pf (mul_le_l B 1 (bo - rs_c1 st)). lia. }
      destruct (Z.le_gt_cases (bo - rs_c1 st) (-1)). { pf (mul_le_l B 1 (rs_c1 st - bo)). lia. } lia. }
  assert (Er : r = H mod B).
  { symmetry. apply (mod_eq_of _ _ (rs_c1 st - bo)); [lia|]. rewrite EH. ring. }
  assert (BG := B_gt). assert (D01 : 0 <= bo - rs_c1 st <= 1) by (rewrite D; destruct (H <? 0); cbn; lia).
  apply wp_bind, wp_dassert. { destruct (Z.eqb_spec (rs_c1 st) 0); [auto|]. destruct (Z.eqb_spec bo 0); [lia|auto]. }
  apply wp_bind, wp_dassert_m. { apply wp_bind, wp_lsub; [lia|]. apply wp_ret. apply Z.leb_le. lia. }
  apply wp_bind, wp_dassert_m. { apply wp_bind, wp_lsub; [lia|]. apply wp_bind, wp_sub32; [lia|]. apply wp_bind, wp_lshr; [lia|]. apply wp_ret. apply Z.eqb_eq.
    rewrite D, Er, neg_msb by lia. auto. }
  apply wp_ret. rewrite Er. auto.
Qed.

Lemma lor_high : forall x s, 0 <= s <= W -> isl x -> Z.lor x (B - 2 ^ s) = x mod 2 ^ s + (B - 2 ^ s).
Proof.
  intros x s Hs Hx. pose proof (pow2_gt0 s). assert (EB : B = 2 ^ (W - s) * 2 ^ s) by (rewrite (B_split s Hs) at 1; ring).
  assert (EH : B - 2 ^ s = Z.shiftl (Z.ones (W - s)) s). { rewrite Z.shiftl_mul_pow2, Z.ones_equiv by lia. rewrite EB at 1. lia. }
  rewrite <- lor_disjoint_add.
  - apply Z.bits_inj'. intros i Hi. rewrite !Z.lor_spec. rewrite EH, Z.shiftl_spec by auto.
    destruct (Z.lt_ge_cases i s).
    + rewrite Z.mod_pow2_bits_low by lia. auto.
    + rewrite Z.mod_pow2_bits_high by lia. rewrite Z.testbit_ones by lia. destruct (Z.ltb_spec (i - s) (W - s)).
      * rewrite (proj2 (Z.leb_le 0 (i - s))) by lia. cbn. apply orb_true_r.
      * rewrite andb_false_r, orb_false_r. cbn. destruct (Z.eq_dec x 0) as [->|]; [apply Z.testbit_0_l|]. apply Z.bits_above_log2; [unfold isl in Hx; lia|].
        apply Z.log2_lt_pow2; [unfold isl in Hx; lia|]. unfold isl in Hx. rewrite B_eq in Hx. assert (2 ^ W <= 2 ^ i) by (apply Z.pow_le_mono_r; lia). lia.
  - apply Z.bits_inj'. intros i Hi. rewrite Z.land_spec, Z.bits_0, EH, Z.shiftl_spec by auto.
    destruct (Z.lt_ge_cases i s); [rewrite (Z.testbit_neg_r _ (i - s)) by lia; apply andb_false_r|]. rewrite Z.mod_pow2_bits_high by lia. auto.
Qed.

Lemma lxor_bits : forall x y, Z.lxor (b2z x) (b2z y) = b2z (xorb x y).
Proof. intros [] []; auto. Qed.

Lemma wp_finish2 : forall s m X k H (Q : Z * Z -> Prop), rkst s m X k -> 0 <= s <= W - 2 -> - 2 ^ (W - 1) <= H < 2 ^ (W - 1) ->
  (let T := H + rk_carry k in let r0 := rk_last k + (T mod 2 ^ s) * 2 ^ (W - s) in - 2 ^ (W - 1) <= T < 2 ^ (W - 1) /\
     (isl r0 -> Q (b2z (T <? 0), if T <? 0 then r0 mod 2 ^ s + (B - 2 ^ s) else r0))) ->
  wp (redc_finish_in_twos_complement k (H mod B)) Q.
Proof.
  intros s m X k H Q (He & Hm & E1 & E2 & E3 & Hl & Hc & EX) Hs HH. cbv zeta. intros [HT HQ]. unfold redc_finish_in_twos_complement. rewrite E1, E2.
  set (C := rk_carry k) in *. set (T := H + C) in *. pose proof W_pos as WP. pose proof B_pow2_half as BH. pose proof B_gt as BG. pose proof (pow2_gt0 (W - 1)) as PW.
  apply wp_bind, wp_sub32; [lia|]. apply wp_bind, wp_lshr; [lia|]. rewrite neg_msb by auto.
  apply wp_bind, wp_add_l; [apply isl_mod|auto|]. intros cy t Hcy It E.
  assert (ET : t = T mod B).
  { symmetry. rewrite (mod_negz H HH) in E. apply (mod_eq_of _ _ (cy - b2z (negz H))); [exact It|]. unfold T. lia. }
  assert (ECY : cy = b2z (negz H && negb (negz T))).
  { rewrite (mod_negz H HH), ET, (mod_negz T HT) in E. unfold negz in *. unfold isl in Hc. destruct (Z.ltb_spec H 0), (Z.ltb_spec T 0); cbn [b2z andb negb] in *; destruct Hcy; subst cy; try lia. }
  assert (HTN : negz T = true -> negz H = true). { unfold negz. rewrite !Z.ltb_lt. unfold isl in Hc. lia. }
  assert (MT : t / 2 ^ (W - 1) = b2z (negz T)) by (rewrite ET; apply neg_msb; auto).
  apply wp_bind, wp_dassert. { rewrite ECY. destruct (negz H), (negz T); auto. }
  apply wp_bind, wp_dassert_m. { apply wp_bind, wp_lshr; [lia|]. apply wp_ret. rewrite MT, ECY. destruct (negz H), (negz T); auto. }
  apply wp_bind, wp_dassert_m. { apply wp_bind, wp_lshr; [lia|]. apply wp_ret. rewrite MT, ECY. destruct (negz H), (negz T); auto. }
  assert (EX2 : Z.lxor cy (b2z (negz H)) = b2z (negz T)). { rewrite ECY, lxor_bits. destruct (negz H), (negz T); auto. discriminate HTN; auto. }
  rewrite EX2. apply wp_bind, wp_dassert_m. { apply wp_bind, wp_lshr; [lia|]. apply wp_ret. rewrite MT. apply Z.eqb_refl. }
  apply wp_bind, wp_lshift_hi; [lia|auto|]. apply wp_ret.
  rewrite ET, mod_pow_B by lia. pose proof (pow2_gt0 s) as Ps. pose proof (pow2_gt0 (W - s)) as Pws.
  assert (EB : B = 2 ^ (W - s) * 2 ^ s) by (rewrite (B_split s) at 1 by lia; ring).
  assert (E0 : Z.lor (rk_last k) (T mod 2 ^ s * 2 ^ (W - s)) = rk_last k + (T mod 2 ^ s) * 2 ^ (W - s)).
  { rewrite Z.lor_comm, lor_shift_add by lia. lia. }
  rewrite E0. set (r0 := rk_last k + (T mod 2 ^ s) * 2 ^ (W - s)) in *.
  assert (I0 : isl r0).
  { unfold isl, r0. pf (Z.mod_pos_bound T (2 ^ s)). pf (mul_nn (T mod 2 ^ s) (2 ^ (W - s))). pf (mul_le_l (2 ^ (W - s)) (T mod 2 ^ s) (2 ^ s - 1)). rewrite EB. lia. }
  specialize (HQ I0). unfold negz in *. destruct (T <? 0); cbn [b2z] in *.
  - assert (EL : Z.land (lwsub 0 1) (lnot (2 ^ s - 1)) = B - 2 ^ s).
    { unfold lwsub. replace (0 - 1) with (B - 1 + (-1) * B) by ring. rewrite Z.mod_add, Z.mod_small by lia. rewrite lnot_eq by (unfold isl; pose proof (pow2_le_B s); lia).
      change (B - 1) with (chc true) at 1. rewrite land_chc by (unfold isl; pose proof (pow2_le_B s); lia). lia. }
    rewrite EL, lor_high by (auto; lia). exact HQ.
  - unfold lwsub. rewrite Z.sub_0_r, Z.mod_0_l by lia. rewrite Z.land_0_l, Z.lor_0_r. exact HQ.
Qed.
End Facts.
