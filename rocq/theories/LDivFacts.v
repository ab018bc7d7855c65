(** Correctness of the double-limb by limb divisions. *)
From Coq Require Import ZArith List Bool Lia.
Require Import Verif.Spec Verif.Base Verif.Monad Verif.Wp Verif.ModelLimb Verif.LimbFacts Verif.LimbFacts2.
Import ListNotations.
Open Scope Z_scope.

(** Arithmetic core of the Granlund-Montgomery quotient estimate. *)
Lemma gm_core : forall P E v k n2 n0 n1 t0 q1 u,
  0 < P -> 0 < E -> 0 < v < P -> 1 <= k <= v ->
  (n1 = 0 /\ n0 < v \/ n1 = 1 /\ P - v <= n0) -> 0 <= n0 < P -> 0 <= n2 < v * E ->
  0 <= t0 < P * E -> u = n2 * P + n0 ->
  forall m, m * v = P * E * (P - v) - k ->
  m * (n2 + n1) + (n0 * E - n1 * (P * E - v * E)) = P * E * (q1 - n2) + t0 ->
  0 <= u - q1 * v < 2 * v.
Proof.
  intros P E v k n2 n0 n1 t0 q1 u HP HE Hv Hk Hn1 Hn0 Hn2 Ht0 Hu m Hm HT.
  assert (F : P * E * (u - q1 * v) = E * (P - v) * (n0 - n1 * (P - v)) + k * (n2 + n1) + v * t0).
  { assert (v * (P * E * (q1 - n2) + t0) = v * (m * (n2 + n1) + (n0 * E - n1 * (P * E - v * E)))) by (rewrite HT; ring).
    replace (v * (m * (n2 + n1) + (n0 * E - n1 * (P * E - v * E)))) with
      ((m * v) * (n2 + n1) + v * (n0 * E - n1 * (P * E - v * E))) in H by ring.
    rewrite Hm in H. subst u.
    replace (P * E * (n2 * P + n0 - q1 * v)) with (P * E * (n2 * P + n0) - P * E * n2 * v - v * (P * E * (q1 - n2) + t0) + v * t0) by ring.
    rewrite H. ring. }
  clear HT Hm.
  assert (PE : 0 < P * E) by (apply Z.mul_pos_pos; lia).
  assert (N : 0 <= n0 - n1 * (P - v) <= v - 1) by (destruct Hn1 as [[-> ?]|[-> ?]]; lia).
  assert (H01 : n1 = 0 \/ n1 = 1) by (destruct Hn1; tauto).
  set (x := n0 - n1 * (P - v)) in *. clearbody x. clear Hn1.
  assert (EPv : 0 < E * (P - v)) by (apply Z.mul_pos_pos; lia).
  assert (L1 : E * (P - v) * x <= E * (P - v) * (v - 1)) by (apply mul_le_l; lia).
  assert (L1' : 0 <= E * (P - v) * x) by (apply mul_nn; lia).
  assert (L2 : k * (n2 + n1) <= v * (n2 + n1)) by (apply Z.mul_le_mono_nonneg_r; lia).
  assert (L2' : 0 <= k * (n2 + n1)) by (apply mul_nn; lia).
  assert (L3 : v * t0 <= v * (P * E - 1)) by (apply mul_le_l; lia).
  assert (L3' : 0 <= v * t0) by (apply mul_nn; lia).
  assert (L4 : v * (n2 + n1) <= v * (v * E)) by (apply mul_le_l; lia).
  assert (P * E * (u - q1 * v) < P * E * (2 * v)).
  { rewrite F. nia. }
  split.
  - apply mul_le_cancel with (c := P * E); lia.
  - apply mul_lt_cancel with (c := P * E); lia.
Qed.

Section Facts.
Context {c : cfg}.

(** The multiplier stored in a CtLDivisor for divisor [v]. *)
Definition ld_ok (d : ct_l_divisor) (v : Z) : Prop :=
  0 < v < B /\ ld_v d = v /\ ld_v_width d = nbits v /\
  ld_m d = (2 ^ (W + nbits v) - 1) / v - B.

Lemma nbits_W : forall v, isl v -> nbits v <= W.
Proof. intros. apply nbits_le; [pose proof W_pos; lia|]. rewrite <- B_eq. auto. Qed.

(** [B*2^l - 1 = (m + B) * v + r], so [0 <= m < B]. *)
Lemma ld_m_range : forall v, 0 < v < B ->
  let m := (2 ^ (W + nbits v) - 1) / v - B in
  0 <= m < B /\ exists k, 1 <= k <= v /\ m * v = B * (2 ^ nbits v - v) - k.
Proof.
  intros v Hv m.
  assert (Hs := nbits_spec v ltac:(lia)). assert (Hp := nbits_pos v ltac:(lia)).
  assert (HW := nbits_W v ltac:(unfold isl; lia)). pose proof W_pos. pose proof B_gt.
  assert (EP : 2 ^ (W + nbits v) = B * 2 ^ nbits v) by (rewrite Z.pow_add_r, B_eq by lia; reflexivity).
  assert (E2 : 2 ^ nbits v = 2 * 2 ^ (nbits v - 1)).
  { rewrite <- pow_S by lia. f_equal. lia. }
  unfold m. rewrite EP. set (P := 2 ^ nbits v) in *.
  assert (D := div_mod_sum (B * P - 1) v ltac:(lia)).
  assert (M := Z.mod_pos_bound (B * P - 1) v ltac:(lia)).
  set (q := (B * P - 1) / v) in *. set (r := (B * P - 1) mod v) in *.
  split.
  - split; nia.
  - exists (1 + r). split; [lia|]. nia.
Qed.

Lemma wp_ct_compute_m : forall v (Q : Z -> Prop), 0 < v < B ->
  Q ((2 ^ (W + nbits v) - 1) / v - B) -> wp (ct_compute_m v (nbits v)) Q.
Proof.
  intros v Q Hv HQ.
  assert (Hs := nbits_spec v ltac:(lia)). assert (Hp := nbits_pos v ltac:(lia)).
  assert (HW := nbits_W v ltac:(unfold isl; lia)). pose proof W_pos as WP. pose proof B_gt as BG.
  pose proof B_pow2_half as BH.
  assert (PHW : 0 < 2 ^ (W - 1)) by (apply pow2_gt0; lia).
  unfold ct_compute_m. apply wp_bind, wp_dassert; [apply Z.ltb_lt; lia|].
  apply wp_bind, wp_sub32; [lia|]. apply wp_bind, wp_lshl; [lia|].
  set (d := W - nbits v). assert (Hd : 0 <= d < W) by lia.
  assert (PD := pow2_gt0 d ltac:(lia)).
  assert (EBd : B = 2 ^ nbits v * 2 ^ d) by (rewrite <- Z.pow_add_r, B_eq by lia; f_equal; lia).
  assert (EHd : 2 ^ (W - 1) = 2 ^ (nbits v - 1) * 2 ^ d) by (rewrite <- Z.pow_add_r by lia; f_equal; lia).
  assert (HV : 2 ^ (W - 1) <= v * 2 ^ d < B) by nia.
  rewrite Z.mod_small by lia. set (V := v * 2 ^ d) in *.
  apply wp_bind. eapply (wp_lc_new false); [reflexivity|].
  apply wp_bind, wp_lsb_mask; [lia|].
  assert (Hd2 := pow2_lt_B d Hd).
  rewrite lnot_0, lnot_eq by (unfold isl; lia).
  set (R0 := B * B - 2 ^ d).
  apply wp_bind.
  eapply wp_for with (I := fun i '(rm, rh, rl, q) =>
    exists b qf, rm = chc b /\ isl rh /\ isl rl /\ q = qf mod B /\ 0 <= qf /\
      b2z b * (B * B) + rh * B + rl = 2 ^ i * R0 - qf * (2 * (V * B)) /\
      b2z b * (B * B) + rh * B + rl < 2 * (V * B)).
  - lia.
  - exists false, 0. cbn [chc b2z]. unfold isl, R0. change (2 ^ 0) with 1.
    rewrite Z.mod_0_l by lia. repeat split; try lia. nia.
  - intros i [[[rm rh] rl] q] Hi (b & qf & -> & Hrh & Hrl & -> & Hqf & HE & HL).
    apply wp_bind, wp_geq_l; [auto|unfold isl; lia|].
    rewrite lc_or_chc, lc_unwrap_chc, lc_select_chc by (apply isl_0 || (unfold isl; lia)).
    set (g := b || (V <=? rh)).
    assert (Hg : 0 <= b2z b * B + rh - b2z g * V < V).
    { assert (T : b2z b * B + rh < 2 * V) by (apply mul_lt_cancel with (c := B); unfold isl in *; lia).
      unfold g. unfold isl in *. destruct b; cbn [b2z orb] in *; [lia|].
      destruct (Z.leb_spec V rh); cbn [b2z]; lia. }
    assert (Ers : lwsub rh (if g then V else 0) = b2z b * B + rh - b2z g * V).
    { unfold lwsub. unfold isl in *. eapply mod_eq_of with (q := - b2z b); [lia|].
      destruct g; cbn [b2z]; lia. }
    rewrite Ers. set (r' := b2z b * B + rh - b2z g * V) in *.
    apply wp_bind, wp_lshl; [destruct W_cases; lia|].
    apply wp_bind, wp_sub32; [lia|].
    apply wp_bind, wp_lshr; [lia|].
    rewrite (msb_div W) by (rewrite <- ?B_eq; lia).
    apply wp_bind. eapply wp_lc_new; [reflexivity|].
    apply wp_bind, wp_lshl; [destruct W_cases; lia|].
    apply wp_bind, wp_lshr; [lia|].
    rewrite (msb_div W) by (rewrite <- ?B_eq; auto; lia).
    apply wp_bind, wp_lshl; [destruct W_cases; lia|].
    apply wp_ret. change (2 ^ 1) with 2.
    assert (Em : forall x, isl x -> (x * 2) mod B = 2 * x - B * b2z (2 ^ (W - 1) <=? x)).
    { intros x Hx. unfold isl in Hx. destruct (Z.leb_spec (2 ^ (W - 1)) x); cbn [b2z].
      - eapply mod_eq_of with (q := 1); lia.
      - rewrite Z.mod_small; lia. }
    assert (LOR : forall x y, isl x -> Z.lor ((x * 2) mod B) (b2z y) = (x * 2) mod B + b2z y).
    { intros x y Hx. assert (E : (x * 2) mod B = (x mod 2 ^ (W - 1)) * 2 ^ 1).
      { change (2 ^ 1) with 2. rewrite BH. rewrite (Z.mul_comm 2). apply Zmult_mod_distr_r. }
      rewrite E. apply lor_shift_add; [lia|]. destruct y; cbn; lia. }
    exists (2 ^ (W - 1) <=? r'), (2 * qf + b2z g).
    assert (Hr'l : isl r') by (unfold isl; lia).
    rewrite (LOR r') by auto. rewrite (Em r') by auto. rewrite (Em rl) by auto.
    assert (Bg := b2z_range g). assert (Brl := b2z_range (2 ^ (W - 1) <=? rl)).
    repeat split; auto.
    + destruct (Z.leb_spec (2 ^ (W - 1)) r'), (Z.leb_spec (2 ^ (W - 1)) rl); cbn [b2z]; lia.
    + destruct (Z.leb_spec (2 ^ (W - 1)) r'), (Z.leb_spec (2 ^ (W - 1)) rl); cbn [b2z]; lia.
    + destruct (Z.leb_spec (2 ^ (W - 1)) rl); cbn [b2z]; unfold isl in *; lia.
    + destruct (Z.leb_spec (2 ^ (W - 1)) rl); cbn [b2z]; unfold isl in *; lia.
    + rewrite LOR by apply isl_mod.
      rewrite Z.mul_mod_idemp_l by lia. rewrite (Z.mul_comm 2 qf).
      (* (x*2) mod B + bit = (x*2+bit) mod B *)
      assert (E : (qf * 2) mod B = (qf mod 2 ^ (W - 1)) * 2).
      { rewrite BH. rewrite (Z.mul_comm 2). apply Zmult_mod_distr_r. }
      symmetry. apply mod_eq_of with (q := qf / 2 ^ (W - 1)).
      * rewrite E. assert (M := Z.mod_pos_bound qf (2 ^ (W - 1)) PHW). lia.
      * rewrite E. assert (D := div_mod_sum qf (2 ^ (W - 1)) PHW). rewrite BH. lia.
    + lia.
    + rewrite pow_S by lia. unfold r'. lia.
    + assert (0 <= b2z b * (B * B) + rh * B + rl - b2z g * (V * B) < V * B).
      { replace (b2z b * (B * B) + rh * B + rl - b2z g * (V * B)) with (r' * B + rl) by (unfold r'; ring).
        unfold isl in Hrl. assert (0 <= r' * B) by (apply mul_nn; lia).
        assert (B * r' <= B * (V - 1)) by (apply mul_le_l; lia). lia. }
      unfold r'. lia.
  - intros [[[rm rh] rl] q] (b & qf & -> & Hrh & Hrl & -> & Hqf & HE & HL).
    apply wp_ret.
    assert (EQ : qf = (2 ^ (W + nbits v) - 1) / v).
    { rewrite Z.pow_add_r, <- B_eq in HE by lia. change (2 ^ 1) with 2 in HE.
      set (s := b2z b * (B * B) + rh * B + rl) in *.
      assert (0 <= s).
      { unfold isl in *. assert (0 <= rh * B) by (apply mul_nn; lia). assert (0 <= B * B) by (apply mul_nn; lia).
        unfold s. destruct b; cbn [b2z]; lia. }
      assert (X : 0 <= R0 - qf * V < V).
      { split; [apply mul_le_cancel with (c := 2 * B); lia|apply mul_lt_cancel with (c := 2 * B); lia]. }
      assert (R0 = 2 ^ d * (2 ^ (W + nbits v) - 1)).
      { unfold R0. rewrite Z.pow_add_r, <- B_eq by lia. rewrite Z.mul_sub_distr_l. rewrite EBd at 2. ring. }
      symmetry. apply div_eq_of with (r := 2 ^ (W + nbits v) - 1 - qf * v); [|ring].
      unfold V in X. split; [apply mul_le_cancel with (c := 2 ^ d); lia|apply mul_lt_cancel with (c := 2 ^ d); lia]. }
    destruct (ld_m_range v Hv) as [Hm _]. cbv zeta in Hm.
    replace (qf mod B) with ((2 ^ (W + nbits v) - 1) / v - B); auto.
    rewrite EQ. symmetry. eapply mod_eq_of with (q := 1); lia.
Qed.

Lemma wp_l_divisor_new : forall v (Q : result ct_l_divisor ldiv_err -> Prop), isl v ->
  (v = 0 -> Q (Err LDivisorIsZero)) -> (forall d, v <> 0 -> ld_ok d v -> Q (Ok d)) -> wp (ct_l_divisor_new v) Q.
Proof.
  intros v Q Hv H0 H1. unfold ct_l_divisor_new. apply wp_bind, wp_is_zero; auto.
  apply wp_mif; intros H.
  - destruct (Z.eqb_spec v 0); cbn in H; [|discriminate]. apply wp_ret. auto.
  - destruct (Z.eqb_spec v 0); cbn in H; [discriminate|].
    apply wp_bind, wp_dassert. { reflexivity. }
    unfold isl in Hv. apply wp_bind, wp_fls; auto. apply wp_bind, wp_ct_compute_m; [lia|].
    apply wp_ret, H1; auto. split; [lia|]. cbn. auto.
Qed.

(** do_div: for [uh < v], quotient and remainder of [uh*B+ul] by [v]. *)
Lemma wp_l_divisor_do_div : forall d v uh ul (Q : Z * Z -> Prop), ld_ok d v -> isl ul -> 0 <= uh < v ->
  (forall q r, isl q -> 0 <= r < v -> uh * B + ul = q * v + r -> Q (q, r)) ->
  wp (ct_l_divisor_do_div d (uh, ul)) Q.
Proof.
  intros d v uh ul Q (Hv & Ev & El & Em) Hul Huh HQ.
  unfold ct_l_divisor_do_div. rewrite El, Ev. set (m := ld_m d) in *. clearbody m.
  destruct (ld_m_range v Hv) as [Hm (k & Hk & Hmk)]. cbv zeta in Hm, Hmk. rewrite <- Em in *.
  assert (Hs := nbits_spec v ltac:(lia)). assert (Hp := nbits_pos v ltac:(lia)).
  assert (HlW := nbits_W v ltac:(unfold isl; lia)). pose proof W_pos as WP. pose proof B_gt as BG.
  pose proof B_pow2_half as BH.
  clear Em. set (l := nbits v) in *.
  assert (E2 : 2 ^ l = 2 * 2 ^ (l - 1)) by (rewrite <- pow_S by lia; f_equal; lia).
  assert (PH := pow2_gt0 (l - 1) ltac:(lia)).
  set (e := W - l) in *. assert (PE := pow2_gt0 e ltac:(lia)).
  assert (EB : B = 2 ^ l * 2 ^ e) by (rewrite <- Z.pow_add_r, B_eq by lia; f_equal; lia).
  assert (EBh : 2 ^ (W - 1) = 2 ^ (l - 1) * 2 ^ e) by (rewrite <- Z.pow_add_r by lia; f_equal; lia).
  set (P := 2 ^ l) in *. set (E := 2 ^ e) in *.
  set (u := uh * B + ul). assert (Hu : 0 <= u < v * B) by (apply dig2_lt; auto).
  apply wp_bind, wp_dassert. { apply andb_true_iff. split; [apply Z.ltb_lt|apply Z.leb_le]; lia. }
  apply wp_bind, wp_sub32; [lia|]. apply wp_bind, wp_lshr; [lia|].
  apply wp_bind, wp_lshr; [destruct W_cases; lia|].
  apply wp_bind, wp_sub32; [lia|]. fold e. apply wp_bind, wp_lshl; [lia|]. fold E.
  assert (HuhP : uh < P) by lia.
  assert (EuhE : (uh * E) mod B = uh * E). { apply Z.mod_small. rewrite EB. apply mul_rng; lia. }
  rewrite EuhE.
  assert (Eull : ul / 2 ^ (l - 1) / 2 ^ 1 = ul / P).
  { rewrite Z.div_div by lia. f_equal. change (2 ^ 1) with 2. lia. }
  rewrite Eull.
  assert (HulP : 0 <= ul / P < E) by (apply div_pos_bound; [lia|]; unfold isl in *; lia).
  assert (ELor : Z.lor (ul / P) (uh * E) = uh * E + ul / P).
  { rewrite Z.lor_comm. apply lor_shift_add; fold E; lia. }
  rewrite ELor.
  assert (Dul := div_mod_sum ul P ltac:(lia)). assert (Mul := Z.mod_pos_bound ul P ltac:(lia)).
  set (n2 := uh * E + ul / P) in *. set (n0 := ul mod P) in *.
  assert (Hu2 : u = n2 * P + n0) by (unfold u, n2; rewrite EB; lia).
  assert (Hn2 : 0 <= n2 < v * E) by (apply dig2_lt; lia).
  apply wp_bind, wp_lshl; [lia|]. fold E.
  assert (E10 : (ul * E) mod B = n0 * E).
  { rewrite EB. rewrite Zmult_mod_distr_r. reflexivity. }
  rewrite E10.
  assert (Hn10 : 0 <= n0 * E < B) by (rewrite EB; apply mul_rng; lia).
  apply wp_bind, wp_sub32; [lia|]. apply wp_bind, wp_lshr; [lia|].
  rewrite (msb_div W) by (rewrite <- ?B_eq; lia).
  assert (Eb1 : (2 ^ (W - 1) <=? n0 * E) = (2 ^ (l - 1) <=? n0)).
  { rewrite EBh. destruct (Z.leb_spec (2 ^ (l - 1)) n0); [apply Z.leb_le, Z.mul_le_mono_nonneg_r; lia|apply Z.leb_gt, Z.mul_lt_mono_pos_r; lia]. }
  rewrite Eb1. set (b1 := 2 ^ (l - 1) <=? n0) in *.
  apply wp_bind, wp_lshl; [lia|]. fold E.
  assert (HvE : 2 ^ (W - 1) <= v * E < B).
  { rewrite EBh, EB. split; [apply Z.mul_le_mono_nonneg_r|apply Z.mul_lt_mono_pos_r]; lia. }
  rewrite (Z.mod_small (v * E)) by lia.
  apply wp_bind, wp_lshr; [lia|].
  rewrite (msb_div W) by (rewrite <- ?B_eq; lia).
  apply wp_bind, wp_dassert.
  { destruct (Z.leb_spec (2 ^ (W - 1)) (v * E)); [reflexivity|lia]. }
  apply wp_bind. eapply wp_lc_new; [reflexivity|].
  rewrite lc_select_chc by (apply isl_0 || (unfold isl; lia)).
  assert (Hb1 : b2z b1 = 0 /\ n0 < v \/ b2z b1 = 1 /\ P - v <= n0).
  { unfold b1. destruct (Z.leb_spec (2 ^ (l - 1)) n0); cbn [b2z]; lia. }
  set (n1 := b2z b1) in *.
  assert (Eadj : lwadd (n0 * E) (if b1 then v * E else 0) = n0 * E - n1 * (B - v * E)).
  { unfold lwadd, n1, b1. destruct (Z.leb_spec (2 ^ (l - 1)) n0); cbn [b2z].
    - assert (2 ^ (l - 1) * E <= n0 * E) by (apply Z.mul_le_mono_nonneg_r; lia).
      eapply mod_eq_of with (q := 1); lia.
    - rewrite Z.mod_small; lia. }
  rewrite Eadj.
  assert (Hadj : isl (n0 * E - n1 * (B - v * E))).
  { rewrite <- Eadj. apply isl_mod. }
  set (nadj := n0 * E - n1 * (B - v * E)) in *.
  assert (Hn21 : n2 + n1 <= B - 1).
  { assert (v * E <= (P - 1) * E) by (apply Z.mul_le_mono_nonneg_r; lia). lia. }
  assert (Hn1r : 0 <= n1 <= 1) by apply b2z_range.
  apply wp_bind, wp_dassert.
  { rewrite lnot_0. apply orb_true_iff. destruct (Z.eq_dec n1 0); [right; apply Z.eqb_eq|left; apply Z.ltb_lt]; lia. }
  apply wp_bind, wp_ladd; [lia|].
  apply wp_bind, wp_mul_l; [unfold isl; lia|unfold isl; lia|]. intros ph pl Hph Hpl Eprod.
  apply wp_bind, wp_add_l; auto. intros k1 t0 Hk1 Ht0 Et0.
  assert (GM : 0 <= u - (n2 + ph + k1) * v < 2 * v).
  { apply gm_core with (P := P) (E := E) (k := k) (n2 := n2) (n0 := n0) (n1 := n1) (t0 := t0) (m := m); auto; try lia.
    all: unfold isl in *; rewrite <- EB; fold nadj; lia. }
  assert (Hq1 : n2 + ph + k1 < B).
  { apply mul_lt_cancel with (c := v); [lia|]. rewrite Z.mul_comm. lia. }
  apply wp_bind, wp_add_c; [unfold isl; lia|auto|lia|].
  intros k2 q1 Hk2 Hq1' Eq1. unfold isl in Hph, Hq1'.
  destruct Hk2 as [-> | ->]; [|lia]. assert (Eq2 : n2 + ph + k1 = q1) by lia.
  rewrite Eq2 in GM. clear Eq2 Eq1.
  apply wp_bind, wp_dassert; [reflexivity|].
  clear - HQ GM Hq1' Hul Huh Hv BG Hu.
  rewrite ct_negate_eq by apply isl_mod.
  assert (Eneg : (- lwadd q1 1) mod B = B - (q1 + 1)).
  { unfold lwadd. destruct (Z.eq_dec q1 (B - 1)) as [->|].
    - replace (B - 1 + 1) with B by lia. rewrite Z.mod_same by lia. rewrite Z.mod_0_l; lia.
    - rewrite (Z.mod_small (q1 + 1)) by lia. eapply mod_eq_of with (q := -1); lia. }
  rewrite Eneg. set (nq := B - (q1 + 1)) in *.
  apply wp_bind, wp_mul_l; [unfold isl; lia|unfold isl; lia|]. intros ph2 pl2 Hph2 Hpl2 Ep2.
  apply wp_bind, wp_add_l; auto. intros c1 rl Hc1 Hrl Erl.
  apply wp_bind, wp_add_c; [unfold isl; lia|auto|lia|]. intros c2 rh Hc2 Hrh Erh.
  apply wp_bind, wp_sub_l; [auto|unfold isl; lia|]. intros rh2 Hrh2 Erh2.
  assert (Bb := b2z_range (rh <? v)). set (bo := b2z (rh <? v)) in *.
  assert (VAL : (c2 - bo) * (B * B) + rh2 * B + rl = u - (q1 + 1) * v).
  { unfold u. assert (nq * v = B * v - (q1 + 1) * v) by (unfold nq; ring). lia. }
  unfold isl in *.
  assert (c2 - bo = -1 \/ c2 - bo = 0).
  { assert (- v <= u - (q1 + 1) * v < v) by lia. assert (-1 <= c2 - bo <= 1) by lia.
    assert (c2 - bo <> 1).
    { intros E1. rewrite E1 in VAL. assert (0 <= rh2 * B) by (apply mul_nn; lia).
      assert (B * 1 <= B * B) by (apply mul_le_l; lia). lia. }
    lia. }
  apply wp_bind, wp_dassert.
  { apply orb_true_iff. destruct (Z.eq_dec c2 0); [left; apply Z.eqb_eq; auto|right]. apply negb_true_iff, Z.eqb_neq. lia. }
  assert (Ex : Z.lxor bo c2 = b2z (c2 - bo =? -1)).
  { assert (bo = 0 \/ bo = 1) as [Eb|Eb] by lia; rewrite Eb; destruct Hc2 as [Ec|Ec]; rewrite Ec; try reflexivity; lia. }
  rewrite Ex. apply wp_bind. eapply wp_lc_new; [reflexivity|].
  rewrite lc_not_chc, !lc_select_chc by (apply isl_0 || apply isl_1 || (unfold isl; lia)).
  destruct (Z.eqb_spec (c2 - bo) (-1)) as [En|En]; cbn [negb].
  - assert (rh2 = B - 1 /\ rl = B + (u - (q1 + 1) * v)) as [-> ->].
    { apply (digit_unique B); [lia| |].
      - rewrite En in VAL. assert (B * (rh2 + 1) <= B * B) by (apply mul_le_l; lia). lia.
      - rewrite En in VAL. lia. }
    apply wp_bind, wp_ladd; [lia|].
    apply wp_bind, wp_add_l; [unfold isl; lia|unfold isl; lia|]. intros c3 r Hc3 Hr Er.
    unfold isl in Hr. assert (c3 = 1 /\ r = u - q1 * v) as [-> ->] by lia.
    apply wp_bind, wp_dassert. { unfold lwadd. replace (B - 1 + 1) with B by lia. rewrite Z.mod_same by lia. reflexivity. }
    apply wp_bind, wp_dassert. { apply Z.ltb_lt. lia. }
    apply wp_ret. apply HQ; unfold isl; fold u; lia.
  - assert (Ez : c2 - bo = 0) by lia. rewrite Ez in VAL.
    assert (0 <= B * rh2) by (apply mul_nn; lia).
    assert (rh2 = 0 /\ rl = u - (q1 + 1) * v) as [-> ->].
    { apply (digit_unique B); lia. }
    assert (q1 + 1 < B) by (apply mul_lt_cancel with (c := v); lia).
    apply wp_bind, wp_ladd; [lia|].
    apply wp_bind, wp_add_l; [unfold isl; lia|apply isl_0|]. intros c3 r Hc3 Hr Er.
    unfold isl in Hr. assert (c3 = 0 /\ r = u - (q1 + 1) * v) as [-> ->] by lia.
    apply wp_bind, wp_dassert. { unfold lwadd. rewrite Z.mod_0_l by lia. reflexivity. }
    apply wp_bind, wp_dassert. { apply Z.ltb_lt. lia. }
    apply wp_ret. apply HQ; unfold isl; fold u; lia.
Qed.

(** ** The non-constant-time divisor *)
Lemma wp_nonct_step : forall v uh ul q (Q : Z * Z * Z -> Prop),
  2 ^ (W - 1) <= v < B -> 0 <= uh < v -> isl ul -> isl q -> q < 2 ^ HW ->
  (forall q' uh', 0 <= q' < 2 ^ HW -> 0 <= uh' < v -> uh * 2 ^ HW + ul / 2 ^ HW = q' * v + uh' ->
     Q (uh', (ul mod 2 ^ HW) * 2 ^ HW, q * 2 ^ HW + q')) ->
  wp (nonct_div_step v (v / 2 ^ HW) (v mod 2 ^ HW) (uh, ul, q)) Q.
Proof.
  intros v uh ul q Q Hv Huh Hul Hq Hqh HQ. unfold nonct_div_step.
  destruct HWpow as [P EB]. pose proof HW_eq as [HW2 HWp]. pose proof B_gt as BG. pose proof B_pow2_half as BH.
  set (h := 2 ^ HW) in *.
  assert (LS : forall x y, 0 <= y < h -> Z.lor (x * h) y = x * h + y) by (intros; apply lor_shift_add; fold h; lia).
  assert (Dv := div_mod_sum v h P). assert (Mv := Z.mod_pos_bound v h P).
  set (vh := v / h) in *. set (vl := v mod h) in *.
  assert (Hh2 : exists g, h = 2 * g /\ 2 ^ (W - 1) = g * h /\ 0 < g).
  { exists (2 ^ (HW - 1)). unfold h. split; [|split].
    - rewrite <- pow_S by lia. f_equal. lia.
    - rewrite <- Z.pow_add_r by lia. f_equal. lia.
    - apply pow2_gt0. lia. }
  destruct Hh2 as (g & Eg & EG & Pg).
  assert (Hvh : g <= vh < h) by nia.
  apply wp_bind, wp_ldivhw; [lia|].
  replace half_limb_mask with (h - 1) by (unfold half_limb_mask; rewrite ones_eq; reflexivity).
  assert (D := div_mod_sum uh vh ltac:(lia)). assert (Mh := Z.mod_pos_bound uh vh ltac:(lia)).
  assert (Hcq0 : 0 <= uh / vh) by (apply Z.div_pos; lia).
  set (cq := Z.min (uh / vh) (h - 1)).
  assert (Hcq : 0 <= cq <= h - 1) by lia.
  assert (Hcqv : cq * vh <= uh).
  { assert (cq * vh <= uh / vh * vh) by (apply Z.mul_le_mono_nonneg_r; lia). lia. }
  assert (cq * vh < B) by lia.
  assert (0 <= cq * vh) by (apply Z.mul_nonneg_nonneg; lia).
  apply wp_bind, wp_lmul; [lia|]. apply wp_bind, wp_lsub; [lia|].
  set (r := uh - cq * vh) in *. assert (Hr : 0 <= r < B) by lia.
  apply wp_bind, wp_lshr; [lia|]. fold h.
  assert (Dul := div_mod_sum ul h P). assert (Mul := Z.mod_pos_bound ul h P).
  assert (Hulh : 0 <= ul / h < h) by (apply div_pos_bound; [lia|unfold isl in *; lia]).
  set (u3 := uh * h + ul / h) in *.
  (* the exact quotient digit *)
  assert (D3 := div_mod_sum u3 v ltac:(lia)). assert (M3 := Z.mod_pos_bound u3 v ltac:(lia)).
  assert (H3 : 0 <= u3 < v * h) by (apply dig2_lt; lia).
  set (qs := u3 / v) in *. assert (Hqs : 0 <= qs < h) by (apply div_pos_bound; lia).
  assert (Hle : qs <= cq).
  { unfold cq. apply Z.min_glb; [|lia]. apply Z.div_le_lower_bound; [lia|].
    (* vh * qs <= uh *)
    assert (qs * v <= u3) by lia. assert (0 <= qs * vl) by (apply mul_nn; lia).
    assert (vh * qs < uh + 1); [|lia]. apply mul_lt_cancel with (c := h); [lia|].
    assert (qs * v = h * (vh * qs) + qs * vl) by (rewrite Dv at 1; ring). unfold u3 in *. lia. }
  assert (Hcvl : 0 <= cq * vl <= (h - 1) * (h - 1)).
  { split; [apply mul_nn; lia|apply Z.mul_le_mono_nonneg; lia]. }
  assert (Ecv : cq * v = cq * vh * h + cq * vl) by (rewrite Dv at 1; ring).
  assert (Hup : cq <= qs + 2).
  { assert (cq * vh * h <= uh * h) by (apply Z.mul_le_mono_nonneg_r; lia).
    assert ((cq - 2) * v <= u3) by (unfold u3; lia).
    assert (cq - 2 < qs + 1); [|lia]. apply mul_lt_cancel with (c := v); lia. }
  apply wp_bind.
  assert (OV : wp (mif (negb (r / h =? 0)) then ret false else
     let! a := lmul cq vl in
     let! b := lshl r HW in
     let! b' := lshr ul HW in
     let over := Z.lor b b' <? a in
     tick (EBr over) ;; ret over) (fun over => over = (u3 <? cq * v))).
  { apply wp_mif; intros Hov.
    - apply wp_ret. symmetry. apply Z.ltb_ge.
      apply negb_true_iff, Z.eqb_neq in Hov.
      assert (h <= r). { destruct (Z_lt_le_dec r h); auto. exfalso. apply Hov. apply Z.div_small; lia. }
      rewrite Ecv. unfold u3. assert (uh * h = cq * vh * h + r * h) by (unfold r; ring).
      assert (h * h <= r * h) by (apply Z.mul_le_mono_nonneg_r; lia). lia.
    - apply negb_false_iff, Z.eqb_eq in Hov.
      assert (r < h). { apply Z.div_small_iff in Hov; lia. }
      apply wp_bind, wp_lmul. { lia. }
      apply wp_bind, wp_lshl; [lia|]. fold h.
      apply wp_bind, wp_lshr; [lia|]. fold h.
      apply wp_bind, wp_tick. apply wp_ret.
      rewrite Z.mod_small by (rewrite EB; apply mul_rng; lia).
      rewrite LS by lia.
      rewrite Ecv. unfold u3. assert (uh * h = cq * vh * h + r * h) by (unfold r; ring).
      destruct (Z.ltb_spec (r * h + ul / h) (cq * vl)), (Z.ltb_spec (uh * h + ul / h) (cq * vh * h + cq * vl)); auto; lia. }
  eapply wp_mono; [exact OV|]. intros over ->. clear OV.
  apply wp_bind.
  assert (OC : wp (if u3 <? cq * v then lsub cq 1 else ret cq)
    (fun q1 => 0 <= q1 < h /\ qs <= q1 <= qs + 1)).
  { destruct (Z.ltb_spec u3 (cq * v)).
    - assert (qs < cq) by (apply mul_lt_cancel with (c := v); lia). apply wp_lsub; lia.
    - apply wp_ret. assert (cq < qs + 1) by (apply mul_lt_cancel with (c := v); lia). lia. }
  eapply wp_mono; [exact OC|]. intros q1 (Hq1 & Hq1s). clear OC.
  apply wp_bind, wp_lshr; [lia|]. fold h.
  apply wp_bind, wp_lshl; [lia|]. fold h.
  apply wp_bind, wp_lshr; [lia|]. fold h.
  apply wp_bind, wp_lshl; [lia|]. fold h.
  assert (Duh := div_mod_sum uh h P). assert (Muh := Z.mod_pos_bound uh h P).
  assert (Huhh : 0 <= uh / h < h) by (apply div_pos_bound; [lia|unfold isl in *; lia]).
  assert (E1 : (uh * h) mod B = (uh mod h) * h) by (rewrite EB; apply Zmult_mod_distr_r).
  assert (E0 : (ul * h) mod B = (ul mod h) * h) by (rewrite EB; apply Zmult_mod_distr_r).
  rewrite E1, E0. rewrite LS by lia.
  assert (Hu1 : isl (uh mod h * h + ul / h)) by (unfold isl; rewrite EB; apply dig2_lt; lia).
  assert (E3 : uh / h * B + (uh mod h * h + ul / h) = u3).
  { unfold u3. rewrite Duh at 3. rewrite EB. ring. }
  set (u1 := uh mod h * h + ul / h) in *.
  assert (HhB : h <= B) by (rewrite EB; assert (h * 1 <= h * h) by (apply mul_le_l; lia); lia).
  apply wp_bind, wp_mul_sub; [auto|unfold isl; lia|unfold isl; lia|apply isl_0|].
  intros bo u1' Hbo Hu1' Eu1. 
  apply wp_bind, wp_sub_l; [unfold isl; lia|auto|].
  intros u2' Hu2' Eu2. assert (Bb := b2z_range (uh / h <? bo)). set (b2 := b2z (uh / h <? bo)) in *.
  assert (TOT : (u2' - B * b2) * B + u1' = u3 - q1 * v) by lia.
  assert (RNG : - v <= u3 - q1 * v < v).
  { assert (q1 = qs \/ q1 = qs + 1) as [-> | ->] by lia; lia. }
  apply wp_bind.
  assert (AB : wp (mif (negb (b2 =? 0)) then
       let! cur_q_hl := lsub q1 1 in
       let! '(carry, u1) := ct_add_l_l u1' v in
       let! '(_, u2) := ct_add_l_l u2' carry in
       ret (cur_q_hl, u1, u2)
     else ret (q1, u1', u2')) (fun '(q2, u1, u2) => q2 = qs /\ u1 = u3 - qs * v /\ u2 = 0)).
  { unfold isl in *. apply wp_mif; intros Hb.
    - apply negb_true_iff, Z.eqb_neq in Hb. assert (Eb2 : b2 = 1) by lia. rewrite Eb2 in *.
      assert (u2' = B - 1 /\ u1' = B + (u3 - q1 * v)) as [-> ->].
      { apply (digit_unique B); [lia| |lia]. assert (B * (u2' + 1) <= B * B) by (apply mul_le_l; lia). lia. }
      assert (q1 = qs + 1).
      { assert (q1 = qs \/ q1 = qs + 1) as [E5|] by lia; auto. rewrite E5 in *. exfalso. lia. }
      apply wp_bind, wp_lsub; [lia|].
      apply wp_bind, wp_add_l; [unfold isl; lia|unfold isl; lia|]. intros k x Hk Hx Ex.
      unfold isl in Hx. assert (k = 1 /\ x = u3 - q1 * v + v) as [-> ->] by lia.
      apply wp_bind, wp_add_l; [unfold isl; lia|apply isl_1|]. intros k y Hk' Hy Ey.
      unfold isl in Hy. apply wp_ret. split; [lia|]. split; [lia|]. lia.
    - apply negb_false_iff, Z.eqb_eq in Hb. rewrite Hb in *.
      assert (0 <= B * u2') by (apply mul_nn; lia).
      assert (u2' = 0 /\ u1' = u3 - q1 * v) as [-> ->].
      { apply (digit_unique B); lia. }
      assert (q1 = qs).
      { assert (q1 = qs \/ q1 = qs + 1) as [E5|E5] by lia; auto. rewrite E5 in *. exfalso. lia. }
      apply wp_ret. subst q1. auto. }
  eapply wp_mono; [exact AB|]. intros [[q2 u1''] u2''] (-> & -> & ->).
  apply wp_bind, wp_dassert; [reflexivity|].
  apply wp_bind, wp_lshl; [lia|]. fold h. apply wp_ret.
  rewrite (Z.mod_small (q * h)) by (unfold isl in *; rewrite EB; apply mul_rng; lia).
  rewrite LS by lia.
  apply HQ; lia.
Qed.

Definition nd_ok (d : nonct_l_divisor) (v : Z) : Prop :=
  0 < v < B /\ nd_v d = v /\
  (use_asm = false -> nd_scaling_shift d = W - nbits v /\ nd_low_src_rshift d = nbits v mod W /\
     nd_low_src_mask d = 2 ^ (W - nbits v) - 1).

Lemma leading_zeros_eq : forall v, 0 < v < B -> leading_zeros v = W - nbits v.
Proof.
  intros. unfold leading_zeros, nbits. destruct (Z.eqb_spec v 0); lia.
Qed.

Lemma wp_nonct_new : forall v (Q : result nonct_l_divisor ldiv_err -> Prop), isl v ->
  (v = 0 -> Q (Err LDivisorIsZero)) -> (forall d, v <> 0 -> nd_ok d v -> Q (Ok d)) -> wp (nonct_l_divisor_new v) Q.
Proof.
  intros v Q Hv H0 H1. unfold nonct_l_divisor_new. apply wp_mif; intros H.
  - apply Z.eqb_eq in H. apply wp_ret. auto.
  - apply Z.eqb_neq in H. unfold isl in Hv. destruct use_asm eqn:EA.
    + apply wp_ret, H1; auto. split; [lia|]. split; auto. congruence.
    + rewrite leading_zeros_eq by lia. 
      assert (Hn := nbits_W v Hv). assert (Hp := nbits_pos v ltac:(lia)).
      apply wp_bind, wp_sub32; [lia|]. apply wp_bind, wp_lsb_mask; [lia|]. apply wp_ret, H1; auto.
      split; [lia|]. split; auto. cbn. intros _. repeat split. f_equal. lia.
Qed.

Lemma wp_nonct_do_div : forall d v uh ul (Q : Z * Z -> Prop), nd_ok d v -> isl ul -> 0 <= uh < v ->
  (forall q r, isl q -> 0 <= r < v -> uh * B + ul = q * v + r -> Q (q, r)) ->
  wp (nonct_l_divisor_do_div d (uh, ul)) Q.
Proof.
  intros d v uh ul Q (Hv & Ev & HG) Hul Huh HQ. unfold nonct_l_divisor_do_div.
  pose proof B_gt as BG. pose proof W_pos as WP.
  destruct use_asm eqn:EA.
  - unfold x86_nonct_do_div. apply wp_bind, wp_tick. rewrite Ev.
    destruct (Z.ltb_spec uh v); [|lia]. apply wp_ret. rewrite <- use_asm_64 by auto.
    assert (0 <= uh * B + ul < v * B) by (apply dig2_lt; auto).
    apply HQ.
    + apply div_pos_bound; lia.
    + apply Z.mod_pos_bound; lia.
    + rewrite (div_mod_sum (uh * B + ul) v) at 1 by lia. lia.
  - destruct (HG eq_refl) as (Es & Er & Ek). clear HG.
    unfold generic_nonct_do_div. rewrite Ev, Es, Er, Ek.
    assert (Hs := nbits_spec v ltac:(lia)). assert (Hp := nbits_pos v ltac:(lia)).
    assert (HlW := nbits_W v ltac:(unfold isl; lia)).
    set (l := nbits v) in *. set (e := W - l) in *. assert (PE := pow2_gt0 e ltac:(lia)).
    assert (Pl := pow2_gt0 l ltac:(lia)).
    assert (EB : B = 2 ^ l * 2 ^ e) by (rewrite <- Z.pow_add_r, B_eq by lia; f_equal; lia).
    assert (EBh : 2 ^ (W - 1) = 2 ^ (l - 1) * 2 ^ e) by (rewrite <- Z.pow_add_r by lia; f_equal; lia).
    pose proof HW_eq as [HW2 HWp].
    apply wp_bind, wp_lshl; [lia|]. rewrite (Z.mod_small (v * 2 ^ e)) by (rewrite EB; apply mul_rng; lia).
    set (V := v * 2 ^ e) in *. assert (HV : 2 ^ (W - 1) <= V < B).
    { unfold V. rewrite EB, EBh. split; [apply Z.mul_le_mono_nonneg_r|apply Z.mul_lt_mono_pos_r]; lia. }
    apply wp_bind, wp_lshr; [lia|]. rewrite half_mask_mod.
    apply wp_bind, wp_lshl; [lia|].
    assert (Huhe : 0 <= uh * 2 ^ e < B) by (rewrite EB; apply mul_rng; lia).
    rewrite (Z.mod_small (uh * 2 ^ e)) by lia.
    assert (HlmW : 0 <= l mod W < W) by (apply Z.mod_pos_bound; lia).
    apply wp_bind, wp_lshr; [lia|]. rewrite land_mask by lia.
    assert (Elo : (ul / 2 ^ (l mod W)) mod 2 ^ e = ul / 2 ^ l).
    { destruct (Z.eq_dec l W) as [El|El].
      - assert (He : e = 0) by lia. rewrite He, El in *. change (2 ^ 0) with 1. rewrite Z.mod_1_r.
        symmetry. apply Z.div_small. unfold isl in Hul. rewrite <- B_eq. auto.
      - rewrite (Z.mod_small l) by lia. apply Z.mod_small. apply div_pos_bound; auto. unfold isl in Hul. lia. }
    rewrite Elo.
    assert (Hlo : 0 <= ul / 2 ^ l < 2 ^ e) by (apply div_pos_bound; auto; unfold isl in Hul; lia).
    rewrite lor_shift_add by lia.
    apply wp_bind, wp_lshr; [lia|].
    apply wp_bind, wp_dassert.
    { apply Z.eqb_eq. apply div_eq_of with (r := ul / 2 ^ l); lia. }
    apply wp_bind, wp_lshl; [lia|].
    assert (E0 : (ul * 2 ^ e) mod B = (ul mod 2 ^ l) * 2 ^ e) by (rewrite EB; apply Zmult_mod_distr_r).
    assert (Dl := div_mod_sum ul (2 ^ l) Pl). assert (Ml := Z.mod_pos_bound ul (2 ^ l) Pl).
    rewrite E0. set (U1 := uh * 2 ^ e + ul / 2 ^ l) in *. set (U0 := ul mod 2 ^ l * 2 ^ e) in *.
    assert (HU : U1 * B + U0 = (uh * B + ul) * 2 ^ e) by (unfold U1, U0; rewrite EB; rewrite Dl at 3; ring).
    assert (HU1 : 0 <= U1 < V) by (apply dig2_lt; lia).
    assert (HU0 : isl U0) by (rewrite <- E0; apply isl_mod).
    destruct HWpow as [P EB2].
    unfold zfor. change (Z.to_nat (2 - 0)) with 2%nat. cbn [for_aux].
    apply wp_bind. apply wp_bind, wp_tick. apply wp_bind.
    apply wp_nonct_step; auto; [apply isl_0|]. intros q1 uh1 Hq1 Huh1 E1.
    apply wp_bind, wp_tick. apply wp_bind.
    assert (DU := div_mod_sum U0 (2 ^ HW) P). assert (MU := Z.mod_pos_bound U0 (2 ^ HW) P).
    set (h := 2 ^ HW) in *.
    apply wp_nonct_step; auto.
    { unfold isl. rewrite EB2. apply mul_rng; lia. }
    { assert (h * 1 <= h * h) by (apply mul_le_l; lia). unfold isl; lia. } { lia. }
    fold h. intros q2 uh2 Hq2 Huh2 E2.
    rewrite Z.div_mul, Z.mod_mul in * by lia.
    apply wp_bind, wp_tick. apply wp_ret.
    apply wp_bind, wp_dassert; [reflexivity|].
    apply wp_bind, wp_lshr; [lia|]. apply wp_ret.
    rewrite Z.mul_0_l, Z.add_0_l.
    assert (TOT : (uh * B + ul) * 2 ^ e = (q1 * h + q2) * V + uh2).
    { rewrite <- HU, EB2. lia. }
    assert (Mr : uh2 = 2 ^ e * ((uh * B + ul) - (q1 * h + q2) * v)) by (unfold V in TOT; lia).
    rewrite Mr. rewrite (Z.mul_comm (2 ^ e)), Z.div_mul by lia.
    apply HQ.
    + unfold isl. rewrite EB2. apply dig2_lt; lia.
    + unfold V in Huh2. split; [apply mul_le_cancel with (c := 2 ^ e)|apply mul_lt_cancel with (c := 2 ^ e)]; lia.
    + lia.
Qed.

Lemma wp_l_divisor_nonct_new : forall v (Q : result ct_l_divisor ldiv_err -> Prop), isl v ->
  (v = 0 -> Q (Err LDivisorIsZero)) -> (forall d, v <> 0 -> ld_ok d v -> Q (Ok d)) -> wp (ct_l_divisor_nonct_new v) Q.
Proof.
  intros v Q Hv H0 H1. unfold ct_l_divisor_nonct_new. apply wp_mif; intros H.
  - apply Z.eqb_eq in H. apply wp_ret. auto.
  - apply Z.eqb_neq in H. apply wp_bind, wp_fls; auto. unfold nonct_compute_m.
    pose proof W_pos as WP. pose proof B_gt as BG.
    assert (Hn := nbits_W v Hv). unfold isl in Hv. assert (Hp := nbits_pos v ltac:(lia)).
    assert (Hs := nbits_spec v ltac:(lia)).
    apply wp_bind. apply wp_bind. apply wp_nonct_new; [auto|lia|]. intros d _ Hd.
    assert (Hle : 0 < 2 ^ nbits v <= B) by (apply pow2_le_B; lia).
    apply wp_bind, wp_lsb_mask; [lia|]. apply wp_bind, wp_lsub; [lia|].
    rewrite lnot_0.
    assert (E2 : 2 ^ nbits v = 2 * 2 ^ (nbits v - 1)) by (rewrite <- pow_S by lia; f_equal; lia).
    apply wp_bind. eapply wp_nonct_do_div; [exact Hd|unfold isl; lia|lia|].
    intros q r Hq Hr E. apply wp_ret. apply wp_ret. apply H1; auto.
    split; [lia|]. cbn [ld_m ld_v ld_v_width]. repeat split; auto.
    assert (EQ : (2 ^ (W + nbits v) - 1) / v = q + B); [|rewrite EQ; lia].
    apply div_eq_of with (r := r); [lia|].
    rewrite Z.pow_add_r, <- B_eq by lia. lia.
Qed.

End Facts.
