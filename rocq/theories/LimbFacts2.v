(** Correctness of limb multiplication, bit scans and inversion. *)
From Coq Require Import ZArith List Bool Lia.
Require Import Verif.Spec Verif.Base Verif.Monad Verif.Wp Verif.ModelLimb Verif.LimbFacts.
Import ListNotations.
Open Scope Z_scope.

Section Facts.
Context {c : cfg}.

(** ** Half limbs and multiplication *)
Lemma HWpow : 0 < 2 ^ HW /\ B = 2 ^ HW * 2 ^ HW.
Proof. split; [apply pow2_gt0; pose proof HW_eq; lia|apply B_HW]. Qed.

Lemma half_mask_mod : forall v, Z.land v half_limb_mask = v mod 2 ^ HW.
Proof. intros. unfold half_limb_mask. apply Z.land_ones. pose proof HW_eq. lia. Qed.

Lemma wp_hls : forall v (Q : Z * Z -> Prop), isl v ->
  (forall h l, 0 <= h < 2 ^ HW -> 0 <= l < 2 ^ HW -> v = h * 2 ^ HW + l -> Q (h, l)) -> wp (ct_l_to_hls v) Q.
Proof.
  intros v Q Hv H. unfold ct_l_to_hls. destruct HWpow as [P E]. pose proof HW_eq.
  apply wp_bind, wp_lshr; [lia|]. apply wp_ret. rewrite half_mask_mod.
  apply H.
  - apply div_pos_bound; auto. unfold isl in Hv. lia.
  - apply Z.mod_pos_bound; auto.
  - rewrite (div_mod_sum v (2 ^ HW)) at 1 by auto. lia.
Qed.

Lemma mul_hi_lt : forall x y t, 0 <= x -> B * x + y = t -> 0 <= y -> t < B * B -> x < B.
Proof. intros. pose proof B_pos. nia. Qed.

Lemma wp_mul_l : forall v0 v1 (Q : Z * Z -> Prop), isl v0 -> isl v1 ->
  (forall h l, isl h -> isl l -> v0 * v1 = h * B + l -> Q (h, l)) -> wp (ct_mul_l_l v0 v1) Q.
Proof.
  intros v0 v1 Q H0 H1 HQ. unfold ct_mul_l_l. pose proof B_pos as BP.
  assert (T : 0 <= v0 * v1 < B * B) by (unfold isl in *; nia).
  destruct use_asm eqn:E.
  - unfold x86_ct_mul_l_l. apply wp_ret. rewrite <- use_asm_64 by auto.
    apply HQ; [apply div_pos_bound; lia|apply isl_mod|].
    rewrite (div_mod_sum (v0 * v1) B) at 1 by auto. lia.
  - unfold generic_ct_mul_l_l. destruct HWpow as [P EB]. pose proof HW_eq.
    set (h := 2 ^ HW) in *.
    apply wp_bind, wp_hls; auto. fold h. intros v0h v0l F1 F2 E0.
    apply wp_bind, wp_hls; auto. fold h. intros v1h v1l F3 F4 E1.
    assert (G : forall x y, 0 <= x < h -> 0 <= y < h -> 0 <= x * y /\ x * y <= B - 2 * h + 1) by (intros; nia).
    assert (P00 := G v0l v1l F2 F4). assert (P01 := G v0l v1h F2 F3).
    assert (P10 := G v0h v1l F1 F4). assert (P11 := G v0h v1h F1 F3).
    apply wp_bind, wp_lmul; [lia|]. apply wp_bind, wp_lmul; [lia|].
    apply wp_bind, wp_lmul; [lia|]. apply wp_bind, wp_lmul; [lia|].
    assert (TE : v0 * v1 = v0l * v1l + h * (v0l * v1h) + h * (v0h * v1l) + B * (v0h * v1h)) by (subst v0 v1; rewrite EB; ring).
    set (p00 := v0l * v1l) in *. set (p01 := v0l * v1h) in *. set (p10 := v0h * v1l) in *. set (p11 := v0h * v1h) in *.
    apply wp_bind, wp_hls; [unfold isl; lia|]. fold h. intros ah al Fa Fa' Ea.
    apply wp_bind, wp_hls; [unfold isl; lia|]. fold h. intros bh bl Fb Fb' Eb.
    assert (TE' : v0 * v1 = p00 + h * al + h * bl + B * ah + B * bh + B * p11) by (rewrite TE, Ea, Eb, EB; ring).
    assert (SQ : forall x, 0 <= x < h -> 0 <= x * h < B).
    { intros x Hx. rewrite EB. split; [apply Z.mul_nonneg_nonneg; lia|apply Z.mul_lt_mono_pos_r; lia]. }
    assert (Bal := SQ al Fa'). assert (Bbl := SQ bl Fb').
    assert (NA : 0 <= B * ah) by (apply Z.mul_nonneg_nonneg; lia).
    assert (NB : 0 <= B * bh) by (apply Z.mul_nonneg_nonneg; lia).
    clear G SQ TE.
    apply wp_bind, wp_lshl; [lia|]. fold h. rewrite Z.mod_small by lia.
    apply wp_bind, wp_add_l; [unfold isl; lia|unfold isl; lia|]. intros k1 r1 Hk1 Hr1 E2.
    unfold isl in Hr1.
    assert (p11 + k1 < B).
    { apply mul_hi_lt with (y := r1 + h * bl + B * ah + B * bh) (t := v0 * v1); lia. }
    apply wp_bind, wp_ladd; [lia|].
    assert (p11 + k1 + ah < B).
    { apply mul_hi_lt with (y := r1 + h * bl + B * bh) (t := v0 * v1); lia. }
    apply wp_bind, wp_ladd; [lia|].
    apply wp_bind, wp_lshl; [lia|]. fold h. rewrite Z.mod_small by lia.
    apply wp_bind, wp_add_l; [unfold isl; lia|unfold isl; lia|]. intros k2 r2 Hk2 Hr2 E3.
    unfold isl in Hr2.
    assert (p11 + k1 + ah + k2 < B).
    { apply mul_hi_lt with (y := r2 + B * bh) (t := v0 * v1); lia. }
    apply wp_bind, wp_ladd; [lia|].
    assert (p11 + k1 + ah + k2 + bh < B).
    { apply mul_hi_lt with (y := r2) (t := v0 * v1); lia. }
    apply wp_bind, wp_ladd; [lia|].
    apply wp_ret. apply HQ; unfold isl; [lia|lia|]. lia.
Qed.

Lemma lnot_1 : lnot 1 = B - 2.
Proof. rewrite lnot_eq by apply isl_1. lia. Qed.

Lemma prod_high_assert : forall v0 v1 h l, isl v0 -> isl v1 -> isl h -> isl l -> v0 * v1 = h * B + l ->
  (h <? lnot 1) || ((h =? lnot 1) && (l =? 1)) = true \/ h < B - 2 \/ (h = B - 2 /\ l <= 1).
Proof.
  intros. right. pose proof B_gt. unfold isl in *. assert (v0 * v1 <= (B - 1) * (B - 1)) by nia.
  assert (h < B - 1) by nia. destruct (Z_lt_le_dec h (B - 2)); [auto|right].
  assert (h = B - 2) by lia. subst h. split; [lia|nia].
Qed.

Lemma sq_pred : forall v0 v1, isl v0 -> isl v1 -> v0 * v1 = (B - 2) * B -> False.
Proof.
  (* v0*v1 = B*(B-2): with v0 = B-a, v1 = B-b, a,b >= 1:  B^2 - (a+b)B + ab = B^2 - 2B *)
  intros v0 v1 H0 H1 E. unfold isl in *. pose proof B_gt.
  set (a := B - v0) in *. set (b := B - v1) in *.
  assert (1 <= a <= B) by (unfold a; lia). assert (1 <= b <= B) by (unfold b; lia).
  assert (E2 : (a + b - 2) * B = a * b) by (unfold a, b; nia).
  clearbody a b.
  assert (a * b <= a * B) by nia. assert (a * b <= b * B) by nia.
  assert (a + b - 2 <= a) by nia. assert (a + b - 2 <= b) by nia.
  assert (Ha : a = 1 \/ a = 2) by lia. assert (Hb : b = 1 \/ b = 2) by lia.
  destruct Ha as [Ha|Ha], Hb as [Hb|Hb]; rewrite Ha, Hb in E2; lia.
Qed.

Lemma wp_mul_add : forall op0 v0 v1 k (Q : Z * Z -> Prop), isl op0 -> isl v0 -> isl v1 -> isl k ->
  (forall h l, isl h -> isl l -> op0 + v0 * v1 + k = h * B + l -> Q (h, l)) -> wp (ct_mul_add_l_l_l_c op0 v0 v1 k) Q.
Proof.
  intros op0 v0 v1 k Q Ho H0 H1 Hk HQ. unfold ct_mul_add_l_l_l_c. pose proof B_gt as BP.
  apply wp_bind, wp_mul_l; auto. intros ph pl Hph Hpl E.
  assert (D := prod_high_assert v0 v1 ph pl H0 H1 Hph Hpl E).
  assert (v0 * v1 <= (B - 1) * (B - 1)) by (unfold isl in *; nia).
  apply wp_bind, wp_dassert.
  { destruct D as [D|[D|[D D']]]; auto; rewrite lnot_1.
    - apply orb_true_iff. left. apply Z.ltb_lt. lia.
    - assert (pl <> 0). { intros ->. apply (sq_pred v0 v1); auto. lia. }
      unfold isl in *. apply orb_true_iff. right. apply andb_true_iff. split; apply Z.eqb_eq; lia. }
  apply wp_bind, wp_add_l; auto. intros k0 r0 Hk0 Hr0 E0.
  apply wp_bind, wp_add_l; auto. intros k1 r1 Hk1 Hr1 E1.
  unfold isl in *.
  assert (ET : op0 + v0 * v1 + k = (ph + k0 + k1) * B + r1) by lia.
  assert (ph + k0 + k1 < B) by nia.
  apply wp_bind, wp_dassert.
  { rewrite lnot_1. destruct (Z.ltb_spec ph (B - 2)); auto. cbn [orb]. apply Z.leb_le. nia. }
  apply wp_bind, wp_ladd; [lia|]. apply wp_bind, wp_ladd; [lia|]. apply wp_ret. apply HQ; lia.
Qed.

Lemma wp_mul_sub : forall op0 v0 v1 k (Q : Z * Z -> Prop), isl op0 -> isl v0 -> isl v1 -> isl k ->
  (forall h l, isl h -> isl l -> op0 - v0 * v1 - k = l - h * B -> Q (h, l)) -> wp (ct_mul_sub_l_l_l_b op0 v0 v1 k) Q.
Proof.
  intros op0 v0 v1 k Q Ho H0 H1 Hk HQ. unfold ct_mul_sub_l_l_l_b. pose proof B_gt as BP.
  apply wp_bind, wp_mul_l; auto. intros ph pl Hph Hpl E.
  assert (D := prod_high_assert v0 v1 ph pl H0 H1 Hph Hpl E).
  assert (v0 * v1 <= (B - 1) * (B - 1)) by (unfold isl in *; nia).
  apply wp_bind, wp_dassert.
  { destruct D as [D|[D|[D D']]]; auto; rewrite lnot_1.
    - apply orb_true_iff. left. apply Z.ltb_lt. lia.
    - assert (pl <> 0). { intros ->. apply (sq_pred v0 v1); auto. lia. }
      unfold isl in *. apply orb_true_iff. right. apply andb_true_iff. split; apply Z.eqb_eq; lia. }
  apply wp_bind, wp_sub_l; auto. intros r0 Hr0 E0.
  apply wp_bind, wp_sub_l; auto. intros r1 Hr1 E1.
  assert (R0 := b2z_range (op0 <? k)). assert (R1 := b2z_range (r0 <? pl)).
  set (k0 := b2z (op0 <? k)) in *. set (k1 := b2z (r0 <? pl)) in *.
  unfold isl in *.
  assert (ET : op0 - v0 * v1 - k = r1 - (ph + k0 + k1) * B) by lia.
  assert (ph + k0 + k1 < B) by nia.
  apply wp_bind, wp_dassert.
  { rewrite lnot_1. destruct (Z.ltb_spec ph (B - 2)); auto. cbn [orb]. apply Z.leb_le. nia. }
  apply wp_bind, wp_ladd; [lia|]. apply wp_bind, wp_ladd; [lia|]. apply wp_ret. apply HQ; lia.
Qed.

(** ** Bit scans *)
(** Number of significant bits. *)
Definition nbits (v : Z) : Z := if v =? 0 then 0 else Z.log2 v + 1.

Lemma nbits_0 : nbits 0 = 0.
Proof. reflexivity. Qed.
Lemma nbits_spec : forall v, 0 < v -> 2 ^ (nbits v - 1) <= v < 2 ^ nbits v.
Proof.
  intros v Hv. unfold nbits. destruct (Z.eqb_spec v 0); [lia|].
  replace (Z.log2 v + 1 - 1) with (Z.log2 v) by lia. apply Z.log2_spec. lia.
Qed.
Lemma nbits_pos : forall v, 0 < v -> 0 < nbits v.
Proof. intros v Hv. unfold nbits. destruct (Z.eqb_spec v 0); [lia|]. pose proof (Z.log2_nonneg v). lia. Qed.
Lemma nbits_nonneg : forall v, 0 <= nbits v.
Proof. intros v. unfold nbits. destruct (Z.eqb_spec v 0); [lia|]. pose proof (Z.log2_nonneg v). lia. Qed.
Lemma nbits_unique : forall v n, 0 <= n -> 2 ^ n <= v < 2 ^ (n + 1) -> nbits v = n + 1.
Proof.
  intros v n Hn H. assert (0 < 2 ^ n) by (apply pow2_gt0; lia).
  unfold nbits. destruct (Z.eqb_spec v 0); [lia|]. f_equal. apply Z.log2_unique; auto.
Qed.
Lemma nbits_le : forall v n, 0 <= n -> 0 <= v < 2 ^ n -> nbits v <= n.
Proof.
  intros v n Hn Hv. unfold nbits. destruct (Z.eqb_spec v 0); [lia|].
  assert (Z.log2 v < n) by (apply Z.log2_lt_pow2; lia). lia.
Qed.
Lemma nbits_shift : forall v n, 0 <= n -> 0 < v / 2 ^ n -> 0 <= v -> nbits v = n + nbits (v / 2 ^ n).
Proof.
  intros v n Hn Hv Hv0. assert (P := pow2_gt0 n Hn).
  assert (v <> 0). { intros ->. rewrite Z.div_0_l in Hv; lia. }
  assert (Hs := nbits_spec (v / 2 ^ n) Hv). assert (Hp := nbits_pos _ Hv).
  set (k := nbits (v / 2 ^ n)) in *.
  replace (n + k) with (n + (k - 1) + 1) by lia. apply nbits_unique; [lia|].
  replace (n + (k - 1) + 1) with (n + k) by lia. rewrite !Z.pow_add_r by lia.
  assert (D := div_mod_sum v (2 ^ n) P). assert (M := Z.mod_pos_bound v (2 ^ n) P).
  split; nia.
Qed.

Lemma pow2pow2 : forall k, 0 <= k -> 2 ^ (2 ^ (k + 1)) = 2 ^ (2 ^ k) * 2 ^ (2 ^ k).
Proof.
  intros. rewrite <- Z.pow_add_r by (apply Z.pow_nonneg; lia). f_equal. rewrite pow_S by lia. lia.
Qed.

Lemma W_pow2 : exists k, W = 2 ^ Z.of_nat k /\ (k <= 6)%nat.
Proof. destruct W_cases as [E|E]; rewrite E; [exists 5%nat|exists 6%nat]; split; auto; lia. Qed.

Lemma wp_fls_loop : forall k fuel v count (Q : Z -> Prop),
  (k <= fuel)%nat -> 2 ^ Z.of_nat k <= W -> 0 <= v < 2 ^ (2 ^ Z.of_nat k) ->
  Q (count + nbits v) ->
  wp (fls_loop fuel (2 ^ Z.of_nat k) (2 ^ (2 ^ Z.of_nat k) - 1) v count) Q.
Proof.
  induction k; intros fuel v count Q Hf HW Hv HQ.
  - change (2 ^ Z.of_nat 0) with 1 in *. change (2 ^ 1) with 2 in *.
    assert (v = 0 \/ v = 1) as Hv' by lia.
    assert (F : wp (dassert (v <=? 1);; ret (count + v)) Q).
    { apply wp_bind, wp_dassert; [apply Z.leb_le; lia|]. apply wp_ret.
      destruct Hv'; subst v; exact HQ. }
    destruct fuel; cbn [fls_loop]; apply wp_bind, wp_tick; exact F.
  - destruct fuel; [lia|]. cbn [fls_loop].
    rewrite Nat2Z.inj_succ, <- Z.add_1_r in *.
    assert (P1 : 0 < 2 ^ Z.of_nat k) by (apply pow2_gt0; lia).
    rewrite pow2pow2 in * by lia. rewrite pow_S in * by lia.
    set (n := 2 ^ Z.of_nat k) in *.
    assert (P2 : 0 < 2 ^ n) by (apply pow2_gt0; lia).
    assert (2 ^ n < B) by (rewrite B_eq; apply Z.pow_lt_mono_r; lia).
    assert (2 ^ n * 2 ^ n <= B).
    { rewrite B_eq. rewrite <- Z.pow_add_r by lia. apply Z.pow_le_mono_r; lia. }
    apply wp_mif.
    { intros. apply Z.ltb_lt in H1.
    replace (2 * n / 2) with n by (rewrite Z.mul_comm, Z.div_mul; lia).
    apply wp_bind, wp_lshr; [lia|].
    replace ((2 ^ n * 2 ^ n - 1) / 2 ^ n) with (2 ^ n - 1)
      by (symmetry; eapply div_eq_of with (r := 2 ^ n - 1); lia).
    rewrite land_mask by lia.
    apply wp_bind, wp_lshr; [lia|].
    assert (D := div_mod_sum v (2 ^ n) P2). assert (M := Z.mod_pos_bound v (2 ^ n) P2).
    assert (DB : 0 <= v / 2 ^ n < 2 ^ n) by (apply div_pos_bound; lia).
    apply wp_bind, wp_neq_l; [unfold isl; lia|apply isl_0|].
    rewrite !lc_select_chc; try (unfold isl; lia); try (apply isl_0).
    2:{ unfold isl. assert (n < 2 ^ n) by (apply Z.pow_gt_lin_r; lia). lia. }
    destruct (Z.eqb_spec (v / 2 ^ n) 0) as [Ez|Ez]; cbn [negb].
    + apply IHk; [lia|fold n; lia|fold n; lia|].
      replace (v mod 2 ^ n) with v by lia. rewrite Z.add_0_r. auto.
    + apply IHk; [lia|fold n; lia|fold n; lia|].
      rewrite nbits_shift with (n := n) in HQ by lia.
      rewrite <- Z.add_assoc. auto. }
    { intros. apply Z.ltb_ge in H1. lia. }
Qed.

Lemma wp_fls : forall v (Q : Z -> Prop), isl v -> Q (nbits v) -> wp (ct_find_last_set_bit_l v) Q.
Proof.
  intros v Q Hv HQ. unfold ct_find_last_set_bit_l.
  apply wp_bind, wp_assert. { destruct W_cases as [E|E]; rewrite E; reflexivity. }
  apply wp_bind, wp_assert. { destruct W_cases as [E|E]; rewrite E; reflexivity. }
  rewrite lnot_0, B_eq. destruct W_pow2 as (k & Ek & Hk). rewrite Ek at 2 3.
  apply wp_fls_loop.
  - rewrite Ek. pose proof (Z.pow_gt_lin_r 2 (Z.of_nat k)). lia.
  - lia.
  - rewrite <- Ek. exact Hv.
  - rewrite Z.add_0_l. auto.
Qed.

Lemma wp_fls_byte : forall v (Q : Z -> Prop), isl v -> Q ((nbits v + 7) / 8) -> wp (ct_find_last_set_byte_l v) Q.
Proof.
  intros v Q Hv HQ. unfold ct_find_last_set_byte_l. apply wp_bind, wp_fls; auto. apply wp_ret.
  replace (nbits v + 8 - 1) with (nbits v + 7) by lia. auto.
Qed.

(** [r] is the position of the least significant set bit of [v]. *)
Definition is_ffs (v r : Z) : Prop := 0 <= r /\ v mod 2 ^ r = 0 /\ (v / 2 ^ r) mod 2 = 1.

Lemma is_ffs_low : forall v n r, 0 <= n -> v mod 2 ^ n <> 0 -> is_ffs (v mod 2 ^ n) r -> is_ffs v r.
Proof.
  intros v n r Hn Hz (Hr & H1 & H2).
  assert (Pn := pow2_gt0 n Hn). assert (Pr := pow2_gt0 r Hr).
  assert (r < n).
  { destruct (Z_lt_le_dec r n); auto. exfalso.
    assert (2 ^ n <= 2 ^ r) by (apply Z.pow_le_mono_r; lia).
    assert (M := Z.mod_pos_bound v (2 ^ n) Pn).
    rewrite (Z.mod_small (v mod 2 ^ n)) in H1 by lia. lia. }
  assert (E2: 2 ^ n = 2 ^ r * 2 ^ (n - r)) by (rewrite <- Z.pow_add_r by lia; f_equal; lia).
  assert (P3 : 0 < 2 ^ (n - r)) by (apply pow2_gt0; lia).
  split; auto. split.
  - rewrite E2, mod_mul_le in H1 by lia. auto.
  - rewrite E2, mod_mul_split in H2 by lia. rewrite E2, mod_mul_le in H1 by lia.
    rewrite H1 in H2. rewrite Z.add_0_l, Z.mul_comm, Z.div_mul in H2 by lia.
    replace (n - r) with (1 + (n - r - 1)) in H2 by lia.
    rewrite Z.pow_add_r in H2 by lia. change (2 ^ 1) with 2 in H2.
    rewrite mod_mul_le in H2; [auto|lia|]. apply pow2_gt0; lia.
Qed.
Lemma is_ffs_high : forall v n r, 0 <= n -> v mod 2 ^ n = 0 -> is_ffs (v / 2 ^ n) r -> is_ffs v (n + r).
Proof.
  intros v n r Hn Hz (Hr & H1 & H2).
  assert (Pn := pow2_gt0 n Hn). assert (Pr := pow2_gt0 r Hr).
  split; [lia|]. rewrite Z.pow_add_r by lia. split.
  - rewrite mod_mul_split by lia. rewrite Hz, H1. lia.
  - rewrite div_mul_div by lia. auto.
Qed.
Lemma is_ffs_bound : forall v n r, 0 <= v < 2 ^ n -> is_ffs v r -> r < n.
Proof.
  intros v n r Hv (Hr & H1 & H2). assert (Pr := pow2_gt0 r Hr).
  destruct (Z_lt_le_dec r n); auto. exfalso.
  assert (2 ^ n <= 2 ^ r) by (apply Z.pow_le_mono_r; lia).
  rewrite Z.div_small in H2 by lia. discriminate.
Qed.

Lemma wp_ffs_loop : forall k fuel v count (Q : Z -> Prop),
  (k <= fuel)%nat -> 2 ^ Z.of_nat k <= W -> 0 <= v < 2 ^ (2 ^ Z.of_nat k) -> 2 ^ Z.of_nat k <= count ->
  (v = 0 -> Q count) -> (forall r, v <> 0 -> is_ffs v r -> Q (count - 2 ^ Z.of_nat k + r)) ->
  wp (ffs_loop fuel (2 ^ Z.of_nat k) (2 ^ (2 ^ Z.of_nat k) - 1) v count) Q.
Proof.
  induction k; intros fuel v count Q Hf HW Hv Hc HQ0 HQ1.
  - change (2 ^ Z.of_nat 0) with 1 in *. change (2 ^ 1) with 2 in *.
    assert (v = 0 \/ v = 1) as Hv' by lia.
    assert (F : wp (dassert (v <=? 1);; usub count v) Q).
    { apply wp_bind, wp_dassert; [apply Z.leb_le; lia|]. apply wp_usub; [lia|].
      destruct Hv'; subst v.
      - rewrite Z.sub_0_r. auto.
      - replace (count - 1) with (count - 1 + 0) by lia. apply HQ1; [lia|].
        split; [lia|split; reflexivity]. }
    destruct fuel; cbn [ffs_loop]; apply wp_bind, wp_tick; exact F.
  - destruct fuel; [lia|]. cbn [ffs_loop].
    rewrite Nat2Z.inj_succ, <- Z.add_1_r in *.
    assert (P1 : 0 < 2 ^ Z.of_nat k) by (apply pow2_gt0; lia).
    rewrite pow2pow2 in * by lia. rewrite pow_S in * by lia.
    set (n := 2 ^ Z.of_nat k) in *.
    assert (P2 : 0 < 2 ^ n) by (apply pow2_gt0; lia).
    assert (2 ^ n < B) by (rewrite B_eq; apply Z.pow_lt_mono_r; lia).
    assert (2 ^ n * 2 ^ n <= B).
    { rewrite B_eq. rewrite <- Z.pow_add_r by lia. apply Z.pow_le_mono_r; lia. }
    apply wp_mif.
    { intros. apply Z.ltb_lt in H1.
    replace (2 * n / 2) with n by (rewrite Z.mul_comm, Z.div_mul; lia).
    apply wp_bind, wp_lshr; [lia|].
    replace ((2 ^ n * 2 ^ n - 1) / 2 ^ n) with (2 ^ n - 1)
      by (symmetry; eapply div_eq_of with (r := 2 ^ n - 1); lia).
    rewrite land_mask by lia.
    apply wp_bind, wp_lshr; [lia|].
    assert (D := div_mod_sum v (2 ^ n) P2). assert (M := Z.mod_pos_bound v (2 ^ n) P2).
    assert (DB : 0 <= v / 2 ^ n < 2 ^ n) by (apply div_pos_bound; lia).
    apply wp_bind, wp_neq_l; [unfold isl; lia|apply isl_0|].
    rewrite !lc_select_chc; try (unfold isl; lia); try (apply isl_0).
    2:{ unfold isl. assert (n < 2 ^ n) by (apply Z.pow_gt_lin_r; lia). lia. }
    destruct (Z.eqb_spec (v mod 2 ^ n) 0) as [Ez|Ez]; cbn [negb].
    + apply wp_bind, wp_usub; [lia|].
      apply IHk; [lia|fold n; lia|fold n; lia|fold n; lia| |]; rewrite Z.sub_0_r.
      * intros. apply HQ0. lia.
      * fold n. intros r Hnz Hr. replace (count - n + r) with (count - 2 * n + (n + r)) by lia.
        apply HQ1; [intros ->; rewrite Z.div_0_l in Hnz; lia|]. apply is_ffs_high; auto. lia.
    + apply wp_bind, wp_usub; [lia|].
      apply IHk; [lia|fold n; lia|fold n; lia|fold n; lia| |].
      * intros. lia.
      * fold n. intros r Hnz Hr. replace (count - n - n + r) with (count - 2 * n + r) by lia.
        apply HQ1; [intros ->; rewrite Z.mod_0_l in Hnz; lia|]. eapply is_ffs_low; eauto. lia. }
    { intros. apply Z.ltb_ge in H1. lia. }
Qed.

Lemma wp_ffs : forall v (Q : Z -> Prop), isl v -> (v = 0 -> Q W) -> (forall r, v <> 0 -> is_ffs v r -> Q r) ->
  wp (ct_find_first_set_bit_l v) Q.
Proof.
  intros v Q Hv HQ0 HQ. unfold ct_find_first_set_bit_l.
  apply wp_bind, wp_assert. { destruct W_cases as [E|E]; rewrite E; reflexivity. }
  apply wp_bind, wp_assert. { destruct W_cases as [E|E]; rewrite E; reflexivity. }
  rewrite lnot_0, B_eq. destruct W_pow2 as (k & Ek & Hk). rewrite Ek at 2 3.
  apply wp_ffs_loop.
  - rewrite Ek. pose proof (Z.pow_gt_lin_r 2 (Z.of_nat k)). lia.
  - lia.
  - rewrite <- Ek. exact Hv.
  - lia.
  - auto.
  - rewrite <- Ek. intros. replace (W - W + r) with r by lia. auto.
Qed.

(** ** Inverse modulo the limb radix *)
Lemma wp_inv_loop : forall n k fuel v r (Q : Z -> Prop),
  (n <= fuel)%nat -> 0 < k -> W = k * 2 ^ Z.of_nat n -> isl r -> (v * r) mod 2 ^ k = 1 ->
  (forall r, isl r -> (v * r) mod B = 1 -> Q r) -> wp (inv_mod_l_loop fuel k v r) Q.
Proof.
  induction n; intros k fuel v r Q Hf Hk HW Hr Hi HQ.
  - change (2 ^ Z.of_nat 0) with 1 in HW. assert (k = W) by lia. subst k.
    destruct fuel; cbn [inv_mod_l_loop]; apply wp_mif; rewrite Z.ltb_irrefl; try discriminate; intros _;
      apply wp_ret; apply HQ; auto.
  - destruct fuel; [lia|]. cbn [inv_mod_l_loop].
    rewrite Nat2Z.inj_succ, <- Z.add_1_r, pow_S in HW by lia.
    assert (P := pow2_gt0 (Z.of_nat n) ltac:(lia)).
    apply wp_mif; intros H; [|apply Z.ltb_ge in H; nia].
    pose proof W_pos. assert (2 <= W) by (destruct W_cases; lia).
    apply wp_bind, wp_lshl; [lia|]. apply IHn; [lia|lia|lia|apply isl_mod| |auto].
    assert (HkW : k * 2 <= W) by nia.
    unfold lwsub, lwmul.
    assert (PK := pow2_gt0 (k * 2) ltac:(lia)).
    assert (RM : forall x, (x mod B) mod 2 ^ (k * 2) = x mod 2 ^ (k * 2)).
    { intros. rewrite B_eq. apply mod_mod_pow; lia. }
    rewrite <- Z.mul_mod_idemp_r, RM by lia.
    rewrite Zminus_mod, RM. rewrite RM.
    rewrite <- (Zmult_mod_idemp_l (v * r mod B)), RM.
    rewrite Zmult_mod_idemp_l, <- Zminus_mod, Zmult_mod_idemp_r.
    change (2 ^ 1) with 2.
    (* v r = 1 + 2^k t *)
    assert (Pk := pow2_gt0 k ltac:(lia)).
    assert (E := div_mod_sum (v * r) (2 ^ k) Pk). rewrite Hi in E.
    set (t := v * r / 2 ^ k) in *.
    replace (v * (r * 2 - v * r * r)) with (1 - (v * r - 1) * (v * r - 1)) by ring.
    replace (v * r - 1) with (2 ^ k * t) by lia.
    replace (k * 2) with (k + k) in * by lia. rewrite Z.pow_add_r in * by lia.
    assert (2 <= 2 ^ k). { replace k with (1 + (k - 1)) by lia. rewrite Z.pow_add_r by lia.
      pose proof (pow2_gt0 (k - 1) ltac:(lia)). lia. }
    eapply mod_eq_of with (q := - (t * t)); [nia|ring].
Qed.
Lemma wp_inv_l : forall v (Q : Z -> Prop), isl v -> v mod 2 = 1 -> (forall r, isl r -> (v * r) mod B = 1 -> Q r) ->
  wp (ct_inv_mod_l v) Q.
Proof.
  intros v Q Hv Ho HQ. unfold ct_inv_mod_l.
  apply wp_bind, wp_dassert. { change 1 with (Z.ones 1) at 1. rewrite Z.land_ones by lia. change (2 ^ 1) with 2. rewrite Ho. reflexivity. }
  destruct W_pow2 as (k & Ek & Hk).
  eapply wp_inv_loop with (n := k); auto.
  - rewrite Ek. pose proof (Z.pow_gt_lin_r 2 (Z.of_nat k)). lia.
  - lia.
  - lia.
  - apply isl_1.
  - rewrite Z.mul_1_r. exact Ho.
Qed.

(** ** Arithmetic right shift *)
(** The two's complement value of a limb. *)
Definition sval (v : Z) : Z := if v <? 2 ^ (W - 1) then v else v - B.

Lemma wp_arith_rshift : forall v s (Q : Z -> Prop), isl v -> 0 <= s <= W ->
  Q ((sval v / 2 ^ s) mod B) -> wp (ct_arithmetic_rshift_l v s) Q.
Proof.
  intros v s Q Hv Hs HQ. unfold ct_arithmetic_rshift_l. pose proof B_gt as BG. pose proof W_pos as WP.
  assert (HalfE := B_pow2_half). assert (PH : 0 < 2 ^ (W - 1)) by (apply pow2_gt0; lia).
  assert (HsB : isl s). { unfold isl. destruct W_cases; lia. }
  apply wp_bind, wp_is_nonzero; auto.
  apply wp_bind. eapply wp_lc_new; [reflexivity|].
  rewrite lc_select_chc; [|apply isl_0|apply isl_lnot, isl_0].
  apply wp_bind, wp_sub32; [lia|]. apply wp_bind, wp_lshr; [lia|].
  assert (Em : v / 2 ^ (W - 1) = b2z (2 ^ (W - 1) <=? v)).
  { apply msb_div; auto. }
  rewrite Em, lwsub_0_b2z.
  apply wp_bind, wp_lsub; [destruct W_cases; lia|].
  assert (HWl : isl W) by (unfold isl; destruct W_cases; lia).
  assert (Hd : isl (W - s)) by (unfold isl in *; lia).
  rewrite lnot_0.
  assert (EL : Z.land (W - s) (if negb (s =? 0) then B - 1 else 0) = if s =? 0 then 0 else W - s).
  { change (if negb (s =? 0) then B - 1 else 0) with (chc (negb (s =? 0))). rewrite land_chc_r by auto.
    destruct (s =? 0); reflexivity. }
  rewrite EL.
  apply wp_bind, wp_lshl. { destruct (Z.eqb_spec s 0); lia. }
  apply wp_bind, wp_eq_l; auto.
  rewrite lc_select_chc; [|rewrite <- lnot_0; apply isl_lnot, isl_0|apply isl_0].
  assert (EL2 : Z.land s (if s =? W then 0 else B - 1) = if s =? W then 0 else s).
  { replace (if s =? W then 0 else B - 1) with (chc (negb (s =? W))) by (destruct (s =? W); reflexivity).
    rewrite land_chc_r by auto. destruct (s =? W); reflexivity. }
  rewrite EL2. apply wp_bind, wp_lshr. { destruct (Z.eqb_spec s W); lia. }
  apply wp_ret.
  change (if negb (s =? 0) then B - 1 else 0) with (chc (negb (s =? 0))).
  replace (if s =? W then 0 else B - 1) with (chc (negb (s =? W))) by (destruct (s =? W); reflexivity).
  rewrite land_chc_r by apply isl_mod.
  assert (SV : sval v = v - B * b2z (2 ^ (W - 1) <=? v)).
  { unfold sval. destruct (Z.ltb_spec v (2 ^ (W - 1))), (Z.leb_spec (2 ^ (W - 1)) v); cbn; lia. }
  rewrite SV in HQ.
  destruct (Z.eqb_spec s 0) as [->|Hs0]; cbn [negb].
  - destruct (Z.eqb_spec 0 W); [lia|]. cbn [negb]. change (2 ^ 0) with 1 in *. rewrite Z.div_1_r in *.
    rewrite land_chc_r by auto. rewrite Z.lor_0_l.
    unfold isl in Hv. rewrite Zminus_mod, (Z.mul_comm B), Z.mod_mul, Z.sub_0_r, Z.mod_mod, Z.mod_small in HQ by lia. auto.
  - assert (PS := pow2_gt0 s ltac:(lia)).
    assert (EB : B = 2 ^ (W - s) * 2 ^ s) by (rewrite <- Z.pow_add_r, B_eq by lia; f_equal; lia).
    assert (PD : 0 < 2 ^ (W - s)) by (apply pow2_gt0; lia).
    set (m := b2z (2 ^ (W - 1) <=? v)) in *.
    assert (DE : (v - B * m) / 2 ^ s = v / 2 ^ s - 2 ^ (W - s) * m).
    { rewrite EB. replace (v - 2 ^ (W - s) * 2 ^ s * m) with (v + - (2 ^ (W - s) * m) * 2 ^ s) by ring.
      rewrite Z.div_add by lia. ring. }
    rewrite DE in HQ.
    assert (DB : 0 <= v / 2 ^ s < 2 ^ (W - s)).
    { apply div_pos_bound; auto. unfold isl in Hv. nia. }
    assert (CB : (chc (2 ^ (W - 1) <=? v) * 2 ^ (W - s)) mod B = m * (B - 2 ^ (W - s))).
    { unfold chc, m. destruct (2 ^ (W - 1) <=? v); cbn [b2z].
      - eapply mod_eq_of with (q := 2 ^ (W - s) - 1); nia.
      - rewrite Z.mul_0_l. apply Z.mod_0_l; lia. }
    rewrite CB.
    destruct (Z.eqb_spec s W) as [->|HsW]; cbn [negb].
    + rewrite Z.div_1_r || idtac.
      cbn [chc]. rewrite Z.land_0_r, Z.lor_0_r.
      rewrite Z.sub_diag in *. change (2 ^ 0) with 1 in *.
      assert (v / 2 ^ W = 0) as V0 by lia. rewrite V0 in HQ.
      replace (m * (B - 1)) with ((0 - 1 * m) mod B); auto.
      unfold m. destruct (2 ^ (W - 1) <=? v); cbn [b2z].
      * eapply mod_eq_of with (q := -1); lia.
      * apply Z.mod_0_l; lia.
    + rewrite land_chc_r by (unfold isl; nia).
      replace (m * (B - 2 ^ (W - s))) with ((m * (2 ^ s - 1)) * 2 ^ (W - s)) by (rewrite EB; ring).
      rewrite lor_shift_add by lia.
      replace ((v / 2 ^ s - 2 ^ (W - s) * m) mod B) with (m * (2 ^ s - 1) * 2 ^ (W - s) + v / 2 ^ s) in HQ; auto.
      unfold m. destruct (2 ^ (W - 1) <=? v); cbn [b2z].
      * symmetry. eapply mod_eq_of with (q := -1); [nia|]. rewrite EB. ring.
      * symmetry. rewrite Z.mul_0_r, Z.mul_0_l, Z.sub_0_r, Z.add_0_l. apply Z.mod_small. nia.
Qed.

(** ** usize comparisons *)
Definition isu (x : Z) : Prop := 0 <= x < 2 ^ UW.

Lemma ct_is_zero_usize_eq : forall v, isu v -> ct_is_zero_usize v = b2z (v =? 0).
Proof.
  intros v Hv. unfold ct_is_zero_usize, ct_is_nonzero_usize. pose proof UW_pos.
  rewrite Z.shiftr_div_pow2 by lia. rewrite bits_nonzero by (auto || apply Hv).
  destruct (v =? 0); reflexivity.
Qed.
Lemma wp_eq_usize : forall v0 v1 (Q : Z -> Prop), isu v0 -> isu v1 -> Q (chc (v0 =? v1)) -> wp (ct_eq_usize_usize v0 v1) Q.
Proof.
  intros v0 v1 Q H0 H1 H. unfold ct_eq_usize_usize. pose proof UW_pos.
  eapply wp_lc_new; [|exact H]. rewrite ct_is_zero_usize_eq by (apply lxor_bound; auto; lia). f_equal.
  destruct (Z.eqb_spec v0 v1) as [->|Hn].
  - rewrite Z.lxor_nilpotent. reflexivity.
  - apply Z.eqb_neq. intros E. apply Z.lxor_eq in E. auto.
Qed.
Lemma wp_lt_usize : forall v0 v1 (Q : Z -> Prop), isu v0 -> isu v1 -> Q (chc (v0 <? v1)) -> wp (ct_lt_usize_usize v0 v1) Q.
Proof.
  intros v0 v1 Q H0 H1 H. unfold ct_lt_usize_usize, ct_sub_usize_usize, unot. pose proof UW_pos.
  eapply wp_lc_new; [|exact H]. rewrite Z.shiftr_div_pow2 by lia.
  apply (bits_borrow UW); auto.
Qed.
Lemma wp_leq_usize : forall v0 v1 (Q : Z -> Prop), isu v0 -> isu v1 -> Q (chc (v0 <=? v1)) -> wp (ct_leq_usize_usize v0 v1) Q.
Proof.
  intros. unfold ct_leq_usize_usize. apply wp_bind, wp_lt_usize; auto. apply wp_ret.
  rewrite lc_not_chc, <- Z.leb_antisym. auto.
Qed.
Lemma wp_gt_usize : forall v0 v1 (Q : Z -> Prop), isu v0 -> isu v1 -> Q (chc (v1 <? v0)) -> wp (ct_gt_usize_usize v0 v1) Q.
Proof. intros. apply wp_lt_usize; auto. Qed.
Lemma wp_geq_usize : forall v0 v1 (Q : Z -> Prop), isu v0 -> isu v1 -> Q (chc (v1 <=? v0)) -> wp (ct_geq_usize_usize v0 v1) Q.
Proof. intros. apply wp_leq_usize; auto. Qed.

End Facts.
