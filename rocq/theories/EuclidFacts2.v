(** Facts about euclid_impl.rs (ModelEuclid.v): application of the matrix of a batch to f and g. *)
From Coq Require Import ZArith List Bool Lia.
Require Import Verif.Spec Verif.Base Verif.Monad Verif.Wp Verif.ModelLimb Verif.LimbFacts Verif.LimbFacts2
  Verif.ModelBuf Verif.SpecBuf Verif.BufFacts Verif.BufFacts2 Verif.BufFacts3 Verif.UpFacts Verif.ModelEuclid Verif.GcdBound Verif.EuclidFacts.
Import ListNotations.
Open Scope Z_scope.

Section Facts.
Context {c : cfg}.

(** ** One limb of a row *)
Definition rst_ok (st : rowst) : Prop := isl (rs_c0 st) /\ 0 <= rs_c1 st <= 1 /\ 0 <= rs_b st <= 2.
Definition rval (st : rowst) : Z := rs_c0 st + B * rs_c1 st - rs_b st.
Definition sel (b : bool) (x : Z) : Z := if b then x else 0.

Lemma sel_isl : forall b x, isl x -> isl (sel b x).
Proof. intros [] x H; [auto|apply isl_0]. Qed.

Lemma wp_row_limb : forall st x y x' y' Tf Tg s na nb (Q : rowst * Z -> Prop), rst_ok st -> isl x -> isl y -> isl x' -> isl y' -> isl Tf -> isl Tg ->
  (forall st' r, rst_ok st' -> isl r -> Tf * x + Tg * y + rval st - sel na x' - sel nb y' = r + B * rval st' -> Q (st', r)) ->
  wp (mat_mul_row_compute_limb st (x, y) (x', y') (mk_trow Tf Tg s) (chc na, chc nb)) Q.
Proof.
  intros st x y x' y' Tf Tg s na nb Q (I0 & I1 & Ib) Hx Hy Hx' Hy' Hf Hg HQ. unfold mat_mul_row_compute_limb. cbn [tf tg fst snd].
  pose proof B_gt as BG. destruct st as [c0 c1 bo]. unfold rval in HQ. cbn [rs_c0 rs_c1 rs_b] in *.
  apply wp_bind, wp_mul_l; auto. intros fc r0 Ifc Ir0 E0.
  apply wp_bind, wp_mul_add; auto. intros gc r1 Igc Ir1 E1.
  apply wp_bind, wp_add_c; auto. intros c1' c0' Hc1' Ic0' E2.
  rewrite !land_chc_r by auto. fold (sel na x'). fold (sel nb y'). pose proof (sel_isl na x' Hx') as S1. pose proof (sel_isl nb y' Hy') as S2.
  apply wp_bind, wp_sub_l; auto. intros r2 Ir2 E3. set (fb := b2z (r1 <? sel na x')) in *. assert (Hfb : fb = 0 \/ fb = 1) by (unfold fb; destruct (r1 <? sel na x'); auto).
  unfold isl in *. clearbody fb.
  apply wp_bind, wp_dassert. { destruct Hfb as [->| ->]; [auto|]. apply orb_true_iff. right. apply Z.leb_le. clear - E3 Ir1 S1. lia. }
  apply wp_bind, wp_sub_l; auto. intros r3 Ir3 E4. set (gb := b2z (r2 <? sel nb y')) in *. assert (Hgb : gb = 0 \/ gb = 1) by (unfold gb; destruct (r2 <? sel nb y'); auto).
  unfold isl in *. clearbody gb.
  assert (K1 : gb = 1 -> 1 <= r3) by (clear - E4 Ir2 S2; intros ->; lia).
  assert (K2 : fb = 1 -> gb = 1 -> 2 <= r3) by (clear - E3 E4 Ir1 S1 S2; intros -> ->; lia).
  apply wp_bind, wp_dassert. { destruct Hgb as [->| ->]; [auto|]. apply orb_true_iff. right. apply Z.leb_le. auto. }
  apply wp_bind, wp_dassert_m.
  { apply wp_bind, wp_ladd; [clear - Hfb Hgb BG; lia|]. apply wp_ret. destruct Hfb as [->| ->], Hgb as [->| ->]; auto. apply orb_true_iff. right. apply Z.leb_le. auto. }
  apply wp_bind, wp_dassert. { apply Z.leb_le. lia. }
  apply wp_bind, wp_sub_l; [auto|unfold isl; clear - Ib BG; lia|]. intros r4 Ir4 E5. unfold isl in Ir4.
  assert (HB : b2z (r3 <? bo) + fb + gb <= 2 /\ 0 <= b2z (r3 <? bo)).
  { destruct (Z.ltb_spec r3 bo) as [L|L]; cbn [b2z]; [|clear - Hfb Hgb; lia]. clear - L Ib K2 Hfb Hgb. lia. }
  set (b0 := b2z (r3 <? bo)) in *. clearbody b0.
  apply wp_bind, wp_ladd; [clear - HB Hfb Hgb BG; lia|]. apply wp_bind, wp_ladd; [clear - HB Hfb Hgb BG; lia|].
  apply wp_bind, wp_dassert; [apply Z.leb_le; clear - HB; lia|]. apply wp_ret. apply HQ.
  - split; [exact Ic0'|]. split; cbn [rs_c1 rs_b]; [clear - Hc1'; lia|clear - HB Hfb Hgb; lia].
  - exact Ir4.
  - cbn [rs_c0 rs_c1 rs_b].
    transitivity (fc * B + r0 - r0 + (gc * B + r1) + B * c1 - bo - sel na x' - sel nb y'); [rewrite <- E0, <- E1; ring|].
    assert (E6 : r1 - sel na x' - sel nb y' - bo = r4 - B * (b0 + fb + gb)) by (clear - E3 E4 E5; lia).
    transitivity (B * (fc + gc + c1) + (r1 - sel na x' - sel nb y' - bo)); [ring|]. rewrite E2, E6. ring.
Qed.

(** ** Shifting *)
Lemma wp_row_shift_mask : forall s (Q : Z -> Prop), isl s -> Q (chc (negb (s =? 0))) -> wp (row_shift_mask s) Q.
Proof.
  intros s Q Hs HQ. unfold row_shift_mask. apply wp_bind, wp_is_nonzero; auto. apply wp_bind, (wp_lc_new (negb (s =? 0))); auto.
  apply wp_ret. rewrite lc_mask. auto.
Qed.
Lemma W_lt_B : W < B.
Proof. pose proof W_pos. rewrite B_eq. apply Z.pow_gt_lin_r; lia. Qed.
Lemma wp_row_shift_limb : forall s lo hi (Q : Z -> Prop), 0 <= s < W -> isl lo -> isl hi ->
  Q (((lo + B * hi) / 2 ^ s) mod B) -> wp (row_shift_limb s (chc (negb (s =? 0))) lo hi) Q.
Proof.
  intros s lo hi Q Hs Hl Hh HQ. unfold row_shift_limb. pose proof W_lt_B. pose proof B_gt. apply wp_bind, wp_lshr; auto.
  apply wp_bind, wp_lsub; [lia|]. rewrite land_chc_r by (unfold isl; lia). destruct (Z.eqb_spec s 0) as [->|N]; cbn [negb].
  - apply wp_bind, wp_lshl; [lia|]. apply wp_ret. rewrite (land_chc_r false) by apply isl_mod. rewrite Z.lor_0_r. change (2 ^ 0) with 1 in *. rewrite !Z.div_1_r in *.
    rewrite (Z.mul_comm B), Z.mod_add, Z.mod_small in HQ by (try lia; auto). auto.
  - apply wp_bind, wp_lshl; [lia|]. apply wp_ret. rewrite (land_chc_r true) by apply isl_mod.
    pose proof (pow2_gt0 s). pose proof (pow2_gt0 (W - s)).
    assert (EB : B = 2 ^ s * 2 ^ (W - s)) by (apply B_split; lia).
    assert (E : (hi * 2 ^ (W - s)) mod B = (hi mod 2 ^ s) * 2 ^ (W - s)). { rewrite EB. apply Z.mul_mod_distr_r; lia. }
    assert (L : 0 <= lo / 2 ^ s < 2 ^ (W - s)). { apply div_pos_bound; [lia|]. unfold isl in Hl. lia. }
    rewrite E, Z.lor_comm, lor_shift_add by (auto; lia).
    assert (E2 : ((lo + B * hi) / 2 ^ s) mod B = hi mod 2 ^ s * 2 ^ (W - s) + lo / 2 ^ s); [|rewrite <- E2; auto].
    replace (lo + B * hi) with (lo + (2 ^ (W - s) * hi) * 2 ^ s) by (rewrite EB; ring). rewrite Z.div_add by lia.
    apply (mod_eq_of _ B (hi / 2 ^ s)).
    + pose proof (Z.mod_pos_bound hi (2 ^ s)). pf (dig2_lt (hi mod 2 ^ s) (2 ^ (W - s)) (lo / 2 ^ s) (2 ^ s)). lia.
    + rewrite (Z.div_mod hi (2 ^ s)) at 1 by lia. rewrite EB. ring.
Qed.

(** ** Limbs of a product with a row, with digits of two's complement representations of unbounded size *)
Definition rlhs (a b X Y k : Z) : Z :=
  (a mod B) * (X mod B ^ k) + (b mod B) * (Y mod B ^ k) - sel (negz a) ((B * X) mod B ^ k) - sel (negz b) ((B * Y) mod B ^ k).
Definition rinv (a b X Y k : Z) (st : rowst) : Prop := rst_ok st /\ rlhs a b X Y k = (a * X + b * Y) mod B ^ k + B ^ k * rval st.

Definition small (a : Z) : Prop := - 2 ^ (W - 1) <= a < 2 ^ (W - 1).

Lemma rlhs_cong : forall a b X Y k, 0 <= k -> small a -> small b -> exists t, rlhs a b X Y k = a * X + b * Y + B ^ k * t.
Proof.
  intros a b X Y k Hk Ha Hb. unfold rlhs. rewrite (mod_negz a Ha), (mod_negz b Hb). pose proof (Bpow_pos k Hk). set (P := B ^ k) in *.
  rewrite !(Z.mod_eq _ P) by lia. unfold sel. destruct (negz a), (negz b); cbn [b2z]; rewrite ?Z.mul_0_r, ?Z.mul_1_r, ?Z.add_0_r.
  - exists (- (a + B) * (X / P) - (b + B) * (Y / P) + B * X / P + B * Y / P). ring.
  - exists (- (a + B) * (X / P) - b * (Y / P) + B * X / P). ring.
  - exists (- a * (X / P) - (b + B) * (Y / P) + B * Y / P). ring.
  - exists (- a * (X / P) - b * (Y / P)). ring.
Qed.
Lemma rlhs_S : forall a b X Y k, 0 <= k -> rlhs a b X Y (k + 1) =
  rlhs a b X Y k + B ^ k * ((a mod B) * vlimb X k + (b mod B) * vlimb Y k - sel (negz a) (vlimb (B * X) k) - sel (negz b) (vlimb (B * Y) k)).
Proof. intros. unfold rlhs. rewrite !vmod_S by auto. unfold sel. destruct (negz a), (negz b); ring. Qed.

Lemma rinv_init : forall a b X Y, rinv a b X Y 0 (mk_rowst 0 0 0).
Proof.
  intros. split; [split; [apply isl_0|cbn; lia]|]. unfold rlhs, rval. rewrite !vmod_0. cbn [rs_c0 rs_c1 rs_b]. unfold sel. destruct (negz a), (negz b); lia.
Qed.
(** The previous limb: none in the first round. *)
Definition plimb (X k : Z) : Z := vlimb (B * X) k.
Lemma plimb_0 : forall X, plimb X 0 = 0.
Proof. intros. unfold plimb, vlimb. rewrite Z.pow_0_r, Z.div_1_r, Z.mul_comm. apply Z_mod_mult. Qed.
Lemma plimb_S : forall X k, 0 <= k -> plimb X (k + 1) = vlimb X k.
Proof.
  intros X k Hk. unfold plimb, vlimb. pose proof B_pos. pose proof (Bpow_pos k Hk). rewrite Bpow_S by auto.
  rewrite Z.div_mul_cancel_l by lia. auto.
Qed.

Lemma wp_rinv_step : forall a b s X Y k st (Q : rowst * Z -> Prop), 0 <= k -> small a -> small b -> rinv a b X Y k st ->
  (forall st', rinv a b X Y (k + 1) st' -> Q (st', vlimb (a * X + b * Y) k)) ->
  wp (mat_mul_row_compute_limb st (vlimb X k, vlimb Y k) (plimb X k, plimb Y k) (trow_of a b s) (chc (negz a), chc (negz b))) Q.
Proof.
  intros a b s X Y k st Q Hk Ha Hb (S0 & E0) HQ. unfold trow_of. unfold plimb. apply wp_row_limb; auto; try apply vlimb_isl; try apply isl_mod.
  intros st' r S1 Ir E. pose proof (Bpow_pos k Hk) as Pk. pose proof (Bpow_S k Hk) as PS.
  assert (E1 : rlhs a b X Y (k + 1) = (a * X + b * Y) mod B ^ k + B ^ k * (r + B * rval st')).
  { rewrite rlhs_S by auto. rewrite E0, <- E. ring. }
  set (V := a * X + b * Y) in *.
  assert (E2 : V mod B ^ (k + 1) = V mod B ^ k + r * B ^ k).
  { destruct (rlhs_cong a b X Y (k + 1)) as [t Et]; [lia|auto|auto|]. fold V in Et. apply (mod_eq_of _ _ (rval st' - t)).
    - pose proof (vmod_bound V k Hk). unfold isl in Ir. pf (mul_le_l (B ^ k) r (B - 1)). pf (mul_nn (B ^ k) r). rewrite PS. lia.
    - assert (V = rlhs a b X Y (k + 1) - B ^ (k + 1) * t) by lia. rewrite H at 1. rewrite E1, PS. ring. }
  assert (Er : r = vlimb V k).
  { rewrite vmod_S in E2 by auto. assert (B ^ k * r = B ^ k * vlimb V k) by lia. apply Z.mul_reg_l in H; lia. }
  subst r. apply HQ. split; [auto|]. fold V. rewrite E1, vmod_S, PS by auto. ring.
Qed.

Lemma shift_digit : forall V s i, 0 <= s < W -> 0 <= i -> ((vlimb V i + B * vlimb V (i + 1)) / 2 ^ s) mod B = vlimb (V / 2 ^ s) i.
Proof.
  intros V s i Hs Hi. unfold vlimb. pose proof (Bpow_pos i Hi). pose proof B_pos. pose proof (pow2_gt0 s).
  rewrite Z.div_div, (Z.mul_comm (2 ^ s)), <- Z.div_div by lia. rewrite Bpow_S by auto. rewrite (Z.mul_comm B (B ^ i)), <- Z.div_div by lia.
  set (U := V / B ^ i). assert (EB : B = 2 ^ s * 2 ^ (W - s)) by (apply B_split; lia). pose proof (pow2_gt0 (W - s)).
  pose proof (Z.div_mod U B) as E. set (q := U / B) in *. set (r := U mod B) in *. rewrite E at 1 by lia.
  pose proof (Z.div_mod q B) as Eq. set (q1 := q / B) in *. set (q0 := q mod B) in *.
  assert (ER : B * q + r = r + B * q0 + (2 ^ (W - s) * q1 * B) * 2 ^ s).
  { rewrite Eq by lia. transitivity (r + B * q0 + (2 ^ s * 2 ^ (W - s)) * (q1 * B)); [rewrite <- EB|]; ring. }
  rewrite ER.
  rewrite Z.div_add by lia. replace (2 ^ (W - s) * q1 * B) with ((2 ^ (W - s) * q1) * B) by ring. rewrite Z.mod_add by lia. auto.
Qed.

(** ** The two numbers *)
(** [F], in two's complement, is held by the low limbs of a buffer and the two shadow limbs. *)
Definition hrep (n F : Z) (f : mp) (sh : Z * Z) : Prop :=
  mp_ok f /\ nlimbs f = n /\ mpval f mod B ^ (n - 1) = F mod B ^ (n - 1) /\ sh = (vlimb F (n - 1), vlimb F n).

Lemma hrep_low : forall n F f sh k, hrep n F f sh -> 0 <= k < n - 1 -> vlimb (mpval f) k = vlimb F k.
Proof.
  intros n F f sh k (O & N & E & _) Hk. rewrite <- (limb_of_mod (mpval f) k (n - 1)), <- (limb_of_mod F k (n - 1)) by lia. rewrite E. auto.
Qed.

Lemma head_digit : forall n s F1, 0 < n -> 0 <= s <= W - 2 -> - B ^ n < F1 < B ^ n ->
  (sval (vlimb (2 ^ s * F1) n) / 2 ^ s) mod B = vlimb F1 n /\ (vlimb F1 n = 0 \/ vlimb F1 n = B - 1).
Proof.
  intros n s F1 Hn Hs HF. pose proof (Bpow_pos n) as Pn. pose proof (pow2_gt0 s) as Ps. pose proof B_pow2_half as BH.
  assert (E1 : F1 / B ^ n = 0 \/ F1 / B ^ n = -1).
  { destruct (Z.le_gt_cases 0 F1); [left; apply Z.div_small; lia|right; apply (div_eq_of _ _ _ (F1 + B ^ n)); lia]. }
  assert (E2 : (2 ^ s * F1 / B ^ n) / 2 ^ s = F1 / B ^ n).
  { rewrite Z.div_div, (Z.mul_comm (B ^ n)), Z.div_mul_cancel_l by lia. auto. }
  set (T := 2 ^ s * F1 / B ^ n) in *.
  assert (HT : - 2 ^ (W - 1) <= T < 2 ^ (W - 1)).
  { assert (2 ^ s <= 2 ^ (W - 1)) by (apply Z.pow_le_mono_r; lia). pose proof (Z.div_mod T (2 ^ s)) as D. rewrite E2 in D. pose proof (Z.mod_pos_bound T (2 ^ s)). lia. }
  assert (E3 : sval (vlimb (2 ^ s * F1) n) = T).
  { unfold vlimb. fold T. unfold sval. rewrite (mod_negz T HT). unfold negz. destruct (Z.ltb_spec T 0); cbn [b2z].
    - destruct (Z.ltb_spec (T + B * 1) (2 ^ (W - 1))); lia.
    - destruct (Z.ltb_spec (T + B * 0) (2 ^ (W - 1))); lia. }
  rewrite E3, E2. split; [auto|]. unfold vlimb. pose proof B_gt. destruct E1 as [->| ->]; [left; apply Z.mod_0_l; lia|right].
  rewrite <- (Z.mod_add _ 1) by lia. rewrite Z.mod_small; lia.
Qed.

(** The state of the loop over the limbs. *)
Definition ubuf (f : mp) (V s k : Z) (f' : mp) : Prop := upinv f (mpval f) (Z.max 0 (k - 1)) ((V / 2 ^ s) mod B ^ Z.max 0 (k - 1)) f'.
Definition pnew (V k x : Z) : Prop := isl x /\ (0 < k -> x = vlimb V (k - 1)).

Lemma ubuf_init : forall f V s, mp_ok f -> ubuf f V s 0 f.
Proof. intros. unfold ubuf. change (Z.max 0 (0 - 1)) with 0. rewrite vmod_0. apply upinv_init. auto. Qed.
Lemma wp_ubuf_store : forall f V s k b (Q : mp -> Prop), ubuf f V s k b -> 0 < k < nlimbs f ->
  (forall b', ubuf f V s (k + 1) b' -> Q b') -> wp (store_l_full b (k - 1) (vlimb (V / 2 ^ s) (k - 1))) Q.
Proof.
  intros f V s k b Q U Hk HQ. unfold ubuf in *. replace (Z.max 0 (k - 1)) with (k - 1) in U by lia.
  eapply wp_up_store_full; [exact U|lia|apply nlimbs_full; lia|apply vlimb_isl|]. intros b' U'. apply HQ.
  replace (Z.max 0 (k + 1 - 1)) with (k - 1 + 1) by lia. rewrite vmod_S by lia. auto.
Qed.
Lemma wp_ubuf_load : forall f V s k b F n sh (Q : Z -> Prop), ubuf f V s k b -> hrep n F f sh -> 0 <= k < n - 1 -> Q (vlimb F k) -> wp (load_l_full b k) Q.
Proof.
  intros f V s k b F n sh Q U H Hk HQ. pose proof H as (_ & N & _). eapply wp_up_load_full; [exact U|lia|apply nlimbs_full; lia|].
  rewrite (hrep_low n F f sh); auto.
Qed.
Lemma shift_new : forall V s k x, 0 <= s < W -> 0 < k -> pnew V k x -> ((x + B * vlimb V k) / 2 ^ s) mod B = vlimb (V / 2 ^ s) (k - 1).
Proof.
  intros V s k x Hs Hk [_ E]. rewrite E by auto. rewrite <- shift_digit by lia. replace (k - 1 + 1) with k by lia. auto.
Qed.
Lemma pnew_S : forall V k, pnew V (k + 1) (vlimb V k).
Proof. intros. split; [apply vlimb_isl|]. intros _. f_equal. lia. Qed.

Definition aginv (a b s0 e h s1 F G : Z) (f g : mp) (k : Z) (st : mp * mp * rowst * rowst * (Z * Z) * (Z * Z)) : Prop :=
  let '(f', g', st0, st1, lo, ln) := st in
  ubuf f (a * F + b * G) s0 k f' /\ ubuf g (e * F + h * G) s1 k g' /\ rinv a b F G k st0 /\ rinv e h F G k st1 /\
  lo = (plimb F k, plimb G k) /\ pnew (a * F + b * G) k (fst ln) /\ pnew (e * F + h * G) k (snd ln).

Lemma wp_apply_fg : forall n a b s0 e h s1 F G F1 G1 f g fsh gsh (Q : _ -> Prop), 0 < n ->
  0 <= s0 <= W - 2 -> 0 <= s1 <= W - 2 -> rows_ok F G a b s0 F1 -> rows_ok F G e h s1 G1 ->
  hrep n F f fsh -> hrep n G g gsh -> - B ^ n < F1 < B ^ n -> - B ^ n < G1 < B ^ n ->
  (forall f' g' fsh' gsh', hrep n F1 f' fsh' -> hrep n G1 g' gsh' -> same_shape f f' -> same_shape g g' -> Q (fsh', f', gsh', g')) ->
  wp (apply_to_f_g (mk_tmat (trow_of a b s0) (trow_of e h s1)) ((chc (negz a), chc (negz b)), (chc (negz e), chc (negz h))) fsh f gsh g) Q.
Proof.
  intros n a b s0 e h s1 F G F1 G1 f g fsh gsh Q Hn Hs0 Hs1 [R0 A0] [R1 A1] HF HG BF BG HQ.
  pose proof HF as (Of & Nf & Ef & Sf). pose proof HG as (Og & Ng & Eg & Sg). subst fsh gsh. pose proof W_lt_B as WB. pose proof W_pos as WP.
  destruct (row_small a b s0 Hs0 A0) as [Sa Sb]. destruct (row_small e h s1 Hs1 A1) as [Se Sh].
  unfold apply_to_f_g. rewrite Nf, Ng. cbn [row0 row1 tsh trow_of fst snd]. fold (trow_of a b s0). fold (trow_of e h s1).
  set (V0 := a * F + b * G) in *. set (V1 := e * F + h * G) in *.
  apply wp_bind, wp_assert; [apply Z.eqb_refl|]. apply wp_bind, wp_assert. { destruct (Z.eqb_spec n 0); [lia|auto]. }
  apply wp_bind, wp_row_shift_mask; [unfold isl; lia|]. apply wp_bind, wp_row_shift_mask; [unfold isl; lia|].
  apply wp_bind. apply wp_for with (I := aginv a b s0 e h s1 F G f g).
  { lia. }
  { split; [apply ubuf_init; auto|]. split; [apply ubuf_init; auto|]. split; [apply rinv_init|]. split; [apply rinv_init|].
    rewrite !plimb_0. split; [auto|]. split; (split; [apply isl_0|lia]). }
  { intros k [[[[[f' g'] st0] st1] lo] [l0 l1]] Hk (U0 & U1 & I0 & I1 & -> & P0 & P1). fold V0 in U0, P0. fold V1 in U1, P1. cbn [fst snd] in P0, P1.
    apply wp_bind. eapply wp_ubuf_load; [exact U0|exact HF|lia|]. apply wp_bind. eapply wp_ubuf_load; [exact U1|exact HG|lia|].
    apply wp_bind, wp_rinv_step; [lia|auto|auto|auto|]. intros st0' I0'. apply wp_bind, wp_rinv_step; [lia|auto|auto|auto|]. intros st1' I1'. fold V0. fold V1.
    apply wp_bind.
    apply wp_mono with (Q := fun r => ubuf f V0 s0 (k + 1) (fst r) /\ ubuf g V1 s1 (k + 1) (snd r)).
    - apply wp_mif; intros C.
      + apply Z.ltb_lt in C. cbn [fst snd].
        apply wp_bind, wp_row_shift_limb; [lia|apply P0|apply vlimb_isl|]. apply wp_bind, wp_row_shift_limb; [lia|apply P1|apply vlimb_isl|].
        rewrite !shift_new by (auto; lia). apply wp_bind. eapply wp_ubuf_store; [exact U0|lia|]. intros f2 U2. apply wp_bind. eapply wp_ubuf_store; [exact U1|lia|]. intros g2 U3.
        apply wp_ret. auto.
      + apply Z.ltb_ge in C. assert (k = 0) by lia. subst k. apply wp_ret. split; [exact U0|exact U1].
    - intros [f2 g2] [U2 U3]. cbn [fst snd] in U2, U3. apply wp_ret. split; [exact U2|]. split; [exact U3|]. split; [exact I0'|]. split; [exact I1'|].
      rewrite !plimb_S by lia. split; [auto|]. split; apply pnew_S. }
  intros [[[[[f' g'] st0] st1] lo] [l0 l1]] (U0 & U1 & I0 & I1 & -> & P0 & P1). fold V0 in U0, P0. fold V1 in U1, P1. cbn [fst snd] in P0, P1.
  apply wp_bind, wp_rinv_step; [lia|auto|auto|auto|]. intros st0' I0'. apply wp_bind, wp_rinv_step; [lia|auto|auto|auto|]. intros st1' I1'. fold V0. fold V1.
  apply wp_bind, wp_row_shift_limb; [lia|apply P0|apply vlimb_isl|]. apply wp_bind, wp_row_shift_limb; [lia|apply P1|apply vlimb_isl|]. apply wp_bind.
  apply wp_mono with (Q := fun r => ubuf f V0 s0 n (fst r) /\ ubuf g V1 s1 n (snd r)).
  { apply wp_mif; intros C.
    - apply Z.ltb_lt in C. rewrite !shift_new by (auto; lia). replace (n - 2) with (n - 1 - 1) by lia.
      apply wp_bind. eapply wp_ubuf_store; [exact U0|lia|]. intros f2 U2. apply wp_bind. eapply wp_ubuf_store; [exact U1|lia|]. intros g2 U3.
      apply wp_ret. replace (n - 1 + 1) with n in * by lia. auto.
    - apply Z.ltb_ge in C. assert (n = 1) by lia. apply wp_ret. unfold ubuf in *. rewrite H in *. split; [exact U0|exact U1]. }
  intros [f2 g2] [U2 U3]. cbn [fst snd] in U2, U3. clear U0 U1 f' g' P0 P1 l0 l1.
  replace (n - 1 + 1) with n in * by lia.
  assert (EP : forall X, vlimb X (n - 1) = plimb X n) by (intros; rewrite <- plimb_S by lia; f_equal; lia). rewrite !EP.
  apply wp_bind, wp_rinv_step; [lia|auto|auto|auto|]. intros st0'' _. apply wp_bind, wp_rinv_step; [lia|auto|auto|auto|]. intros st1'' _. fold V0. fold V1.
  rewrite <- !EP.
  apply wp_bind, wp_row_shift_limb; [lia|apply vlimb_isl|apply vlimb_isl|]. apply wp_bind, wp_row_shift_limb; [lia|apply vlimb_isl|apply vlimb_isl|].
  assert (PN : forall X, pnew X n (vlimb X (n - 1))) by (intros; split; [apply vlimb_isl|auto]).
  rewrite !shift_new by (auto; lia).
  destruct (head_digit n s0 F1) as [D0 C0]; [lia|lia|lia|]. destruct (head_digit n s1 G1) as [D1 C1]; [lia|lia|lia|]. rewrite R0 in D0. rewrite R1 in D1.
  apply wp_bind, wp_arith_rshift; [apply vlimb_isl|lia|]. rewrite D0, lnot_0.
  apply wp_bind, wp_dassert. { apply orb_true_iff. rewrite !Z.eqb_eq. auto. }
  apply wp_bind, wp_arith_rshift; [apply vlimb_isl|lia|]. rewrite D1.
  apply wp_bind, wp_dassert. { apply orb_true_iff. rewrite !Z.eqb_eq. auto. }
  apply wp_ret.
  pose proof (pow2_gt0 s0). pose proof (pow2_gt0 s1).
  assert (Q0 : V0 / 2 ^ s0 = F1) by (rewrite <- R0, Z.mul_comm; apply Z.div_mul; lia).
  assert (Q1 : V1 / 2 ^ s1 = G1) by (rewrite <- R1, Z.mul_comm; apply Z.div_mul; lia).
  unfold ubuf in U2, U3. rewrite Q0, Q1 in *. assert (HM : Z.max 0 (n - 1) = n - 1) by (clear - Hn; lia). rewrite HM in U2, U3.
  assert (HR : forall fb X fb', upinv fb (mpval fb) (n - 1) (X mod B ^ (n - 1)) fb' -> nlimbs fb = n -> hrep n X fb' (vlimb X (n - 1), vlimb X n)).
  { intros fb X fb' U N. split; [apply U|]. split; [rewrite (upinv_nlimbs _ _ _ _ _ U); auto|]. split; [|auto].
    rewrite (upinv_V _ _ _ _ _ U). apply lohi_mod. apply vmod_bound. lia. }
  apply HQ; [eapply HR; eauto|eapply HR; eauto|apply U2|apply U3].
Qed.

End Facts.
