(** Correctness of the limb primitives. *)
From Coq Require Import ZArith List Bool Lia.
Require Import Verif.Spec Verif.Base Verif.Monad Verif.Wp Verif.ModelLimb.
Import ListNotations.
Open Scope Z_scope.

(** ** Width-generic bit facts *)

Lemma msb_div : forall n x, 0 < n -> 0 <= x < 2 ^ n -> x / 2 ^ (n - 1) = b2z (2 ^ (n - 1) <=? x).
Proof.
  intros n x Hn Hx.
  assert (E : 2 ^ n = 2 * 2 ^ (n - 1)).
  { replace n with (1 + (n - 1)) at 1 by lia. rewrite Z.pow_add_r by lia. reflexivity. }
  assert (0 < 2 ^ (n - 1)) by (apply pow2_gt0; lia).
  destruct (Z.leb_spec (2 ^ (n - 1)) x); cbn [b2z].
  - eapply div_eq_of with (r := x - 2 ^ (n - 1)); lia.
  - apply Z.div_small; lia.
Qed.

Lemma msb_testbit : forall n x, 0 < n -> 0 <= x < 2 ^ n -> Z.testbit x (n - 1) = (2 ^ (n - 1) <=? x).
Proof.
  intros n x Hn Hx.
  rewrite Z.testbit_eqb by lia. rewrite (msb_div n) by lia.
  destruct (2 ^ (n - 1) <=? x); reflexivity.
Qed.

Lemma div_msb_testbit : forall n x, 0 < n -> 0 <= x < 2 ^ n -> x / 2 ^ (n - 1) = b2z (Z.testbit x (n - 1)).
Proof. intros. rewrite msb_div, msb_testbit by auto. reflexivity. Qed.

Lemma lor_ge_l : forall a b, 0 <= a -> 0 <= b -> a <= Z.lor a b.
Proof.
  intros a b Ha Hb.
  assert (E: Z.lor a b = Z.lor a (Z.ldiff b a)).
  { apply Z.bits_inj'. intros i Hi. rewrite !Z.lor_spec, Z.ldiff_spec.
    destruct (Z.testbit a i), (Z.testbit b i); reflexivity. }
  rewrite E. rewrite lor_disjoint_add.
  - assert (0 <= Z.ldiff b a) by (apply Z.ldiff_nonneg; lia). lia.
  - apply Z.bits_inj'. intros i Hi. rewrite Z.land_spec, Z.ldiff_spec, Z.testbit_0_l.
    destruct (Z.testbit a i), (Z.testbit b i); reflexivity.
Qed.

Lemma bits_nonzero : forall n v, 0 < n -> 0 <= v < 2 ^ n ->
  Z.lor v ((- v) mod 2 ^ n) / 2 ^ (n - 1) = b2z (negb (v =? 0)).
Proof.
  intros n v Hn Hv. assert (P := pow2_gt0 n).
  destruct (Z.eqb_spec v 0) as [->|Hz]; cbn [negb b2z].
  - rewrite Z.mod_0_l by lia. rewrite Z.lor_0_l. apply Z.div_0_l.
    assert (0 < 2 ^ (n - 1)) by (apply pow2_gt0; lia). lia.
  - assert (E: (- v) mod 2 ^ n = 2 ^ n - v).
    { eapply mod_eq_of with (q := -1); lia. }
    rewrite E.
    assert (0 <= Z.lor v (2 ^ n - v) < 2 ^ n) by (apply lor_bound; lia).
    rewrite msb_div by lia.
    replace (2 ^ (n - 1) <=? Z.lor v (2 ^ n - v)) with true; auto.
    symmetry. apply Z.leb_le.
    assert (v <= Z.lor v (2 ^ n - v)) by (apply lor_ge_l; lia).
    assert (2 ^ n - v <= Z.lor v (2 ^ n - v)) by (rewrite Z.lor_comm; apply lor_ge_l; lia).
    assert (2 ^ n = 2 * 2 ^ (n - 1)).
    { replace n with (1 + (n - 1)) at 1 by lia. rewrite Z.pow_add_r by lia. reflexivity. }
    lia.
Qed.

Lemma bits_borrow : forall n v0 v1, 0 < n -> 0 <= v0 < 2 ^ n -> 0 <= v1 < 2 ^ n ->
  let r := (v0 - v1) mod 2 ^ n in
  Z.lor (Z.land (Z.lor r v1) (Z.lxor v0 (Z.ones n))) (Z.land v1 r) / 2 ^ (n - 1) = b2z (v0 <? v1).
Proof.
  intros n v0 v1 Hn H0 H1 r.
  assert (P : 0 < 2 ^ n) by (apply pow2_gt0; lia).
  assert (Hr : 0 <= r < 2 ^ n) by (apply Z.mod_pos_bound; lia).
  assert (Hones : 0 <= Z.ones n < 2 ^ n) by (rewrite ones_eq; lia).
  assert (E : 2 ^ n = 2 * 2 ^ (n - 1)).
  { replace n with (1 + (n - 1)) at 1 by lia. rewrite Z.pow_add_r by lia. reflexivity. }
  rewrite div_msb_testbit; [|lia|].
  - f_equal. rewrite Z.lor_spec, !Z.land_spec, Z.lor_spec, Z.lxor_spec.
    rewrite Z.ones_spec_low by lia.
    rewrite !msb_testbit by lia.
    assert (Er : r = v0 - v1 + 2 ^ n * b2z (v0 <? v1)).
    { unfold r. destruct (Z.ltb_spec v0 v1); cbn [b2z].
      - eapply mod_eq_of with (q := -1); lia.
      - rewrite Z.mod_small; lia. }
    destruct (Z.leb_spec (2 ^ (n - 1)) r), (Z.leb_spec (2 ^ (n - 1)) v0),
      (Z.leb_spec (2 ^ (n - 1)) v1), (Z.ltb_spec v0 v1); cbn [b2z xorb orb andb negb] in *; lia.
  - apply lor_bound; try lia; apply land_bound; try lia.
    + apply Z.lor_nonneg; lia.
    + apply lxor_bound; lia.
Qed.

Lemma bits_carry : forall n v0 v1, 0 < n -> 0 <= v0 < 2 ^ n -> 0 <= v1 < 2 ^ n ->
  let r := (v0 + v1) mod 2 ^ n in
  Z.lor (Z.land (Z.lor v0 v1) (Z.lxor r (Z.ones n))) (Z.land v0 v1) / 2 ^ (n - 1) = b2z (2 ^ n <=? v0 + v1).
Proof.
  intros n v0 v1 Hn H0 H1 r.
  assert (P : 0 < 2 ^ n) by (apply pow2_gt0; lia).
  assert (Hr : 0 <= r < 2 ^ n) by (apply Z.mod_pos_bound; lia).
  assert (Hones : 0 <= Z.ones n < 2 ^ n) by (rewrite ones_eq; lia).
  assert (E : 2 ^ n = 2 * 2 ^ (n - 1)).
  { replace n with (1 + (n - 1)) at 1 by lia. rewrite Z.pow_add_r by lia. reflexivity. }
  rewrite div_msb_testbit; [|lia|].
  - f_equal. rewrite Z.lor_spec, !Z.land_spec, Z.lor_spec, Z.lxor_spec.
    rewrite Z.ones_spec_low by lia.
    rewrite !msb_testbit by lia.
    assert (Er : r = v0 + v1 - 2 ^ n * b2z (2 ^ n <=? v0 + v1)).
    { unfold r. destruct (Z.leb_spec (2 ^ n) (v0 + v1)); cbn [b2z].
      - eapply mod_eq_of with (q := 1); lia.
      - rewrite Z.mod_small; lia. }
    destruct (Z.leb_spec (2 ^ (n - 1)) r), (Z.leb_spec (2 ^ (n - 1)) v0),
      (Z.leb_spec (2 ^ (n - 1)) v1), (Z.leb_spec (2 ^ n) (v0 + v1)); cbn [b2z xorb orb andb negb] in *; lia.
  - apply lor_bound; try lia; apply land_bound; try lia.
    + apply Z.lor_nonneg; lia.
    + apply lxor_bound; lia.
Qed.

Section Facts.
Context {c : cfg}.

Definition isl (x : Z) : Prop := 0 <= x < B.
(** The LimbChoice mask of a truth value. *)
Definition chc (b : bool) : Z := if b then B - 1 else 0.

Lemma isl_0 : isl 0.
Proof. unfold isl. pose proof B_gt. lia. Qed.
Lemma isl_1 : isl 1.
Proof. unfold isl. pose proof B_gt. lia. Qed.
Lemma isl_mod : forall x, isl (x mod B).
Proof. intros. apply Z.mod_pos_bound. apply B_pos. Qed.
Lemma isl_b2z : forall b, isl (b2z b).
Proof. destruct b; [apply isl_1|apply isl_0]. Qed.
Lemma isl_land : forall a b, isl a -> isl b -> isl (Z.land a b).
Proof. unfold isl. intros. rewrite B_eq in *. pose proof W_pos. apply land_bound; lia. Qed.
Lemma isl_lor : forall a b, isl a -> isl b -> isl (Z.lor a b).
Proof. unfold isl. intros. rewrite B_eq in *. pose proof W_pos. apply lor_bound; lia. Qed.
Lemma isl_lxor : forall a b, isl a -> isl b -> isl (Z.lxor a b).
Proof. unfold isl. intros. rewrite B_eq in *. pose proof W_pos. apply lxor_bound; lia. Qed.
Lemma isl_chc : forall b, isl (chc b).
Proof. unfold isl, chc. intros []; pose proof B_gt; lia. Qed.
Lemma ones_W : Z.ones W = B - 1.
Proof. apply ones_eq. Qed.

Lemma lnot_eq : forall x, isl x -> lnot x = B - 1 - x.
Proof. unfold isl, lnot. intros. rewrite B_eq in *. pose proof W_pos. apply lxor_ones; lia. Qed.
Lemma isl_lnot : forall x, isl x -> isl (lnot x).
Proof. intros. rewrite lnot_eq by auto. unfold isl in *. lia. Qed.
Lemma lnot_0 : lnot 0 = B - 1.
Proof. rewrite lnot_eq by apply isl_0. lia. Qed.

Lemma lwsub_0_b2z : forall b, lwsub 0 (b2z b) = chc b.
Proof.
  intros. unfold lwsub, chc. pose proof B_gt. destruct b; cbn [b2z].
  - eapply mod_eq_of with (q := -1); lia.
  - apply Z.mod_0_l; lia.
Qed.

Lemma wp_lc_new : forall b x (Q : Z -> Prop), x = b2z b -> Q (chc b) -> wp (lc_new x) Q.
Proof.
  intros b x Q -> H. unfold lc_new. apply wp_bind, wp_dassert.
  - destruct b; reflexivity.
  - apply wp_ret. rewrite lwsub_0_b2z. auto.
Qed.

Lemma lc_select_chc : forall b v0 v1, isl v0 -> isl v1 ->
  lc_select (chc b) v0 v1 = if b then v1 else v0.
Proof.
  intros b v0 v1 H0 H1. unfold lc_select, chc. destruct b.
  - rewrite <- ones_W. unfold isl in *. rewrite B_eq in *. pose proof W_pos.
    apply lxor_mask_select; lia.
  - rewrite Z.land_0_l, Z.lxor_0_r. reflexivity.
Qed.
Lemma lc_unwrap_chc : forall b, lc_unwrap (chc b) = b2z b.
Proof.
  intros. unfold lc_unwrap, chc. destruct b; [|reflexivity].
  change 1 with (Z.ones 1) at 2. rewrite Z.land_ones by lia.
  change (2 ^ 1) with 2. cbn [b2z].
  destruct B_cases as [E|E]; rewrite E; reflexivity.
Qed.
Lemma lc_not_chc : forall b, lc_not (chc b) = chc (negb b).
Proof. intros. unfold lc_not. rewrite lnot_eq by apply isl_chc. destruct b; cbn; lia. Qed.
Lemma lc_and_chc : forall a b, lc_and (chc a) (chc b) = chc (a && b).
Proof.
  intros. unfold lc_and. destruct a, b; cbn [chc andb]; rewrite ?Z.land_0_l, ?Z.land_0_r; auto.
  apply Z.land_diag.
Qed.
Lemma lc_or_chc : forall a b, lc_or (chc a) (chc b) = chc (a || b).
Proof.
  intros. unfold lc_or. destruct a, b; cbn [chc orb]; rewrite ?Z.lor_0_l, ?Z.lor_0_r; auto.
  apply Z.lor_diag.
Qed.
Lemma lc_select_usize_chc : forall b v0 v1, 0 <= v0 < 2 ^ UW -> 0 <= v1 < 2 ^ UW ->
  lc_select_usize (chc b) v0 v1 = if b then v1 else v0.
Proof.
  intros b v0 v1 H0 H1. unfold lc_select_usize. rewrite lc_unwrap_chc.
  pose proof UW_pos. pose proof UW_gt. destruct b; cbn [b2z].
  - replace ((0 - 1) mod 2 ^ UW) with (Z.ones UW).
    + apply lxor_mask_select; lia.
    + rewrite ones_eq. symmetry. eapply mod_eq_of with (q := -1); lia.
  - rewrite Z.mod_0_l by lia. rewrite Z.land_0_l, Z.lxor_0_r. reflexivity.
Qed.
Lemma chc_inj : forall a b, chc a = chc b -> a = b.
Proof. intros. unfold chc in *. pose proof B_gt. destruct a, b; auto; lia. Qed.
Lemma chc_zero : forall b, (chc b =? 0) = negb b.
Proof. intros. unfold chc. pose proof B_gt. destruct b; cbn [negb]; [apply Z.eqb_neq; lia|reflexivity]. Qed.

Lemma land_chc : forall b v, isl v -> Z.land (chc b) v = if b then v else 0.
Proof.
  intros. unfold chc. destruct b.
  - rewrite <- ones_W, Z.land_comm, Z.land_ones by (pose proof W_pos; lia).
    apply Z.mod_small. exact H.
  - apply Z.land_0_l.
Qed.
Lemma land_chc_r : forall b v, isl v -> Z.land v (chc b) = if b then v else 0.
Proof. intros. rewrite Z.land_comm. apply land_chc; auto. Qed.

(** ** is_zero / eq *)
Lemma use_asm_64 : use_asm = true -> B = 2 ^ 64.
Proof.
  unfold use_asm, B, W, LB. intros H. apply andb_prop in H. destruct H as [-> _]. reflexivity.
Qed.

Lemma wp_is_nonzero : forall v (Q : Z -> Prop), isl v -> Q (b2z (negb (v =? 0))) -> wp (ct_is_nonzero_l v) Q.
Proof.
  intros v Q Hv H. unfold ct_is_nonzero_l. pose proof W_pos. destruct use_asm eqn:E.
  - unfold x86_ct_is_nonzero_l. apply wp_ret. rewrite Z.land_diag. auto.
  - unfold generic_ct_is_nonzero_l. apply wp_bind, wp_sub32; [lia|].
    apply wp_lshr; [lia|]. unfold lwneg. rewrite B_eq, bits_nonzero by (auto || apply Hv). auto.
Qed.
Lemma wp_is_zero : forall v (Q : Z -> Prop), isl v -> Q (b2z (v =? 0)) -> wp (ct_is_zero_l v) Q.
Proof.
  intros v Q Hv H. unfold ct_is_zero_l. destruct use_asm eqn:E.
  - unfold x86_ct_is_zero_l. apply wp_ret. rewrite Z.land_diag. auto.
  - unfold generic_ct_is_zero_l. apply wp_bind, wp_is_nonzero; auto. apply wp_ret.
    destruct (v =? 0); exact H.
Qed.
Lemma wp_eq_l : forall v0 v1 (Q : Z -> Prop), isl v0 -> isl v1 -> Q (chc (v0 =? v1)) -> wp (ct_eq_l_l v0 v1) Q.
Proof.
  intros v0 v1 Q H0 H1 H. unfold ct_eq_l_l. apply wp_bind, wp_is_zero; [apply isl_lxor; auto|].
  eapply wp_lc_new; [|exact H]. f_equal.
  destruct (Z.eqb_spec v0 v1) as [->|Hn].
  - rewrite Z.lxor_nilpotent. reflexivity.
  - apply Z.eqb_neq. intros E. apply Z.lxor_eq in E. auto.
Qed.
Lemma wp_neq_l : forall v0 v1 (Q : Z -> Prop), isl v0 -> isl v1 -> Q (chc (negb (v0 =? v1))) -> wp (ct_neq_l_l v0 v1) Q.
Proof.
  intros. unfold ct_neq_l_l. apply wp_bind, wp_eq_l; auto. apply wp_ret. rewrite lc_not_chc. auto.
Qed.

(** ** Addition, subtraction *)
Lemma wp_sub_l : forall v0 v1 (Q : Z * Z -> Prop), isl v0 -> isl v1 ->
  (forall r, isl r -> v0 - v1 = r - B * b2z (v0 <? v1) -> Q (b2z (v0 <? v1), r)) ->
  wp (ct_sub_l_l v0 v1) Q.
Proof.
  intros v0 v1 Q H0 H1 H. unfold ct_sub_l_l.
  assert (R : v0 - v1 = (v0 - v1) mod B - B * b2z (v0 <? v1)).
  { unfold isl in *. destruct (Z.ltb_spec v0 v1); cbn [b2z].
    - replace ((v0 - v1) mod B) with (v0 - v1 + B); [lia|].
      symmetry. eapply mod_eq_of with (q := -1); lia.
    - rewrite Z.mod_small; lia. }
  destruct use_asm eqn:E.
  - unfold x86_ct_sub_l_l. apply wp_ret. rewrite <- use_asm_64 by auto.
    apply H; [apply isl_mod|exact R].
  - unfold generic_ct_sub_l_l. pose proof W_pos. apply wp_bind, wp_sub32; [lia|].
    apply wp_bind, wp_lshr; [lia|]. apply wp_ret.
    unfold lnot, lwsub. rewrite B_eq at 1 2. rewrite bits_borrow by (auto || apply H0 || apply H1).
    apply H; [apply isl_mod|exact R].
Qed.
Lemma wp_add_l : forall v0 v1 (Q : Z * Z -> Prop), isl v0 -> isl v1 ->
  (forall k r, (k = 0 \/ k = 1) -> isl r -> v0 + v1 = r + B * k -> Q (k, r)) ->
  wp (ct_add_l_l v0 v1) Q.
Proof.
  intros v0 v1 Q H0 H1 H. unfold ct_add_l_l.
  assert (R : v0 + v1 = (v0 + v1) mod B + B * b2z (B <=? v0 + v1)).
  { unfold isl in *. destruct (Z.leb_spec B (v0 + v1)); cbn [b2z].
    - replace ((v0 + v1) mod B) with (v0 + v1 - B); [lia|].
      symmetry. eapply mod_eq_of with (q := 1); lia.
    - rewrite Z.mod_small; lia. }
  destruct use_asm eqn:E.
  - unfold x86_ct_add_l_l. apply wp_ret. rewrite <- use_asm_64 by auto.
    apply H; [destruct (B <=? v0 + v1); cbn; auto|apply isl_mod|exact R].
  - unfold generic_ct_add_l_l. pose proof W_pos. apply wp_bind, wp_sub32; [lia|].
    apply wp_bind, wp_lshr; [lia|]. apply wp_ret.
    unfold lnot, lwadd. rewrite B_eq at 1. rewrite bits_carry by (auto || apply H0 || apply H1).
    rewrite <- B_eq.
    apply H; [destruct (B <=? v0 + v1); cbn; auto|apply isl_mod|exact R].
Qed.
Lemma wp_add_c : forall v0 v1 k (Q : Z * Z -> Prop), isl v0 -> isl v1 -> 0 <= k <= 1 ->
  (forall k' r, (k' = 0 \/ k' = 1) -> isl r -> v0 + v1 + k = r + B * k' -> Q (k', r)) ->
  wp (ct_add_l_l_c v0 v1 k) Q.
Proof.
  intros v0 v1 k Q H0 H1 Hk H. unfold ct_add_l_l_c. pose proof B_gt.
  apply wp_bind, wp_dassert; [apply Z.leb_le; lia|].
  apply wp_bind, wp_add_l; auto; [unfold isl; lia|]. intros k0 r0 Hk0 Hr0 E0.
  apply wp_bind, wp_add_l; auto. intros k1 r1 Hk1 Hr1 E1.
  unfold isl in *.
  assert (k0 + k1 <= 1) by nia.
  apply wp_bind, wp_ladd; [lia|].
  apply wp_bind, wp_dassert; [apply Z.leb_le; lia|].
  apply wp_ret. apply H; lia.
Qed.
Lemma wp_sub_b : forall v0 v1 k (Q : Z * Z -> Prop), isl v0 -> isl v1 -> 0 <= k <= 1 ->
  (forall k' r, (k' = 0 \/ k' = 1) -> isl r -> v0 - v1 - k = r - B * k' -> Q (k', r)) ->
  wp (ct_sub_l_l_b v0 v1 k) Q.
Proof.
  intros v0 v1 k Q H0 H1 Hk H. unfold ct_sub_l_l_b. pose proof B_gt.
  apply wp_bind, wp_dassert; [apply Z.leb_le; lia|].
  apply wp_bind, wp_sub_l; auto; [unfold isl; lia|]. intros r0 Hr0 E0.
  apply wp_bind, wp_sub_l; auto. intros r1 Hr1 E1.
  unfold isl in *.
  assert (F0 := b2z_range (v0 <? k)). assert (F1 := b2z_range (r0 <? v1)).
  assert (b2z (v0 <? k) + b2z (r0 <? v1) <= 1) by nia.
  apply wp_bind, wp_ladd; [lia|].
  apply wp_bind, wp_dassert; [apply Z.leb_le; lia|].
  apply wp_ret. apply H; lia.
Qed.

(** ** Ordering *)
Lemma wp_lt_l : forall v0 v1 (Q : Z -> Prop), isl v0 -> isl v1 -> Q (chc (v0 <? v1)) -> wp (ct_lt_l_l v0 v1) Q.
Proof.
  intros. unfold ct_lt_l_l. apply wp_bind, wp_sub_l; auto. intros.
  eapply wp_lc_new; eauto.
Qed.
Lemma wp_leq_l : forall v0 v1 (Q : Z -> Prop), isl v0 -> isl v1 -> Q (chc (v0 <=? v1)) -> wp (ct_leq_l_l v0 v1) Q.
Proof.
  intros. unfold ct_leq_l_l. apply wp_bind, wp_lt_l; auto. apply wp_ret.
  rewrite lc_not_chc, <- Z.leb_antisym. auto.
Qed.
Lemma wp_gt_l : forall v0 v1 (Q : Z -> Prop), isl v0 -> isl v1 -> Q (chc (v1 <? v0)) -> wp (ct_gt_l_l v0 v1) Q.
Proof. intros. apply wp_lt_l; auto. Qed.
Lemma wp_geq_l : forall v0 v1 (Q : Z -> Prop), isl v0 -> isl v1 -> Q (chc (v1 <=? v0)) -> wp (ct_geq_l_l v0 v1) Q.
Proof. intros. apply wp_leq_l; auto. Qed.
Lemma wp_lt_or_eq_l : forall v0 v1 (Q : Z * Z -> Prop), isl v0 -> isl v1 ->
  Q (b2z (v0 <? v1), b2z (v0 =? v1)) -> wp (ct_lt_or_eq_l_l v0 v1) Q.
Proof.
  intros v0 v1 Q H0 H1 H. unfold ct_lt_or_eq_l_l. apply wp_bind, wp_sub_l; auto. intros r Hr E.
  assert (R : (r =? 0) = (v0 =? v1)).
  { unfold isl in *. destruct (Z.ltb_spec v0 v1); cbn [b2z] in E;
    destruct (Z.eqb_spec r 0), (Z.eqb_spec v0 v1); auto; lia. }
  apply wp_bind, wp_dassert.
  - rewrite R. destruct (Z.eqb_spec v0 v1) as [->|]; auto. rewrite Z.ltb_irrefl. reflexivity.
  - apply wp_bind, wp_is_zero; auto. apply wp_ret. rewrite R. auto.
Qed.

(** ** Masks *)
Lemma wp_lsb_mask : forall n (Q : Z -> Prop), 0 <= n <= W -> Q (2 ^ n - 1) -> wp (ct_lsb_mask_l n) Q.
Proof.
  intros n Q Hn H. unfold ct_lsb_mask_l. pose proof W_pos. pose proof B_gt.
  apply wp_bind, wp_dassert; [apply Z.leb_le; lia|].
  destruct (Z.eq_dec n W) as [->|Hne].
  - rewrite Z.mod_same, Z.div_same by lia.
    apply wp_bind, wp_dassert; [reflexivity|].
    apply wp_bind, wp_dassert; [reflexivity|].
    apply wp_bind, wp_lshl; [lia|].
    rewrite Z.mod_small by (cbn; lia).
    apply wp_bind, wp_lsub; [cbn; lia|].
    apply wp_ret. rewrite Z.mod_small by lia.
    change (1 * 2 ^ 0 - 1) with 0. rewrite Z.lor_0_l.
    change 1 with (b2z true) at 1. rewrite lwsub_0_b2z. exact H.
  - rewrite Z.mod_small, Z.div_small by lia.
    apply wp_bind, wp_dassert; [reflexivity|].
    apply wp_bind, wp_dassert; [reflexivity|].
    apply wp_bind, wp_lshl; [lia|].
    assert (0 < 2 ^ n < B).
    { split; [apply pow2_gt0; lia|]. rewrite B_eq. apply Z.pow_lt_mono_r; lia. }
    rewrite Z.mod_small by lia.
    apply wp_bind, wp_lsub; [lia|].
    apply wp_ret. rewrite Z.mod_small by lia.
    change 0 with (b2z false) at 2. rewrite lwsub_0_b2z. cbn [chc]. rewrite Z.lor_0_r.
    rewrite Z.mul_1_l. auto.
Qed.
Lemma pow2_le_B : forall n, 0 <= n <= W -> 0 < 2 ^ n <= B.
Proof.
  intros. split; [apply pow2_gt0; lia|]. rewrite B_eq. apply Z.pow_le_mono_r; lia.
Qed.
Lemma pow2_lt_B : forall n, 0 <= n < W -> 0 < 2 ^ n < B.
Proof.
  intros. split; [apply pow2_gt0; lia|]. rewrite B_eq. apply Z.pow_lt_mono_r; lia.
Qed.
Lemma land_mask : forall v n, 0 <= n -> Z.land v (2 ^ n - 1) = v mod 2 ^ n.
Proof. intros. rewrite <- ones_eq. apply Z.land_ones; lia. Qed.
Lemma land_lnot_mask : forall v n, isl v -> 0 <= n <= W -> Z.land v (lnot (2 ^ n - 1)) = v - v mod 2 ^ n.
Proof.
  intros v n Hv Hn. rewrite <- ones_eq. unfold lnot.
  assert (E: Z.land v (Z.lxor (Z.ones n) (Z.ones W)) + Z.land v (Z.ones n) = v).
  { rewrite <- lor_disjoint_add.
    - apply Z.bits_inj'. intros i Hi. rewrite Z.lor_spec, !Z.land_spec, Z.lxor_spec.
      destruct (Z_lt_le_dec i W).
      + rewrite (Z.ones_spec_low W) by lia.
        destruct (Z.testbit v i), (Z.testbit (Z.ones n) i); reflexivity.
      + unfold isl in Hv. rewrite B_eq in Hv. rewrite (testbit_above v W) by lia. reflexivity.
    - apply Z.bits_inj'. intros i Hi. rewrite !Z.land_spec, Z.lxor_spec, Z.testbit_0_l.
      destruct (Z_lt_le_dec i n).
      + rewrite !Z.ones_spec_low by lia. destruct (Z.testbit v i); reflexivity.
      + rewrite (Z.ones_spec_high n) by lia. rewrite andb_false_r. apply andb_false_r. }
  rewrite Z.land_ones in E by lia. lia.
Qed.

Lemma ct_negate_eq : forall v, isl v -> ct_negate_l v = (- v) mod B.
Proof.
  intros. unfold ct_negate_l, lwadd. rewrite lnot_eq by auto.
  pose proof B_pos.
  replace (B - 1 - v + 1) with (- v + 1 * B) by lia. apply Z.mod_add; lia.
Qed.

End Facts.
