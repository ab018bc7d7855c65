(** Facts about [Z] used throughout the proofs. *)
From Coq Require Import ZArith List Bool Lia Znumtheory.
Require Import Verif.Spec.
Import ListNotations.
Open Scope Z_scope.

Lemma pow2_pos : forall n, 0 < 2 ^ n \/ 2 ^ n = 0.
Proof.
  intros n. destruct (Z_lt_le_dec n 0).
  - right. apply Z.pow_neg_r; lia.
  - left. apply Z.pow_pos_nonneg; lia.
Qed.

Lemma pow2_gt0 : forall n, 0 <= n -> 0 < 2 ^ n.
Proof. intros. apply Z.pow_pos_nonneg; lia. Qed.

Lemma pow_gt0 : forall b n, 0 < b -> 0 <= n -> 0 < b ^ n.
Proof. intros. apply Z.pow_pos_nonneg; lia. Qed.

Lemma pow_S : forall b n, 0 <= n -> b ^ (n + 1) = b * b ^ n.
Proof. intros. rewrite Z.pow_add_r by lia. lia. Qed.

Lemma mod_small_iff : forall a b, 0 < b -> (a mod b = a <-> 0 <= a < b).
Proof.
  intros. split; intros.
  - pose proof (Z.mod_pos_bound a b). lia.
  - apply Z.mod_small; lia.
Qed.

(** Uniqueness of quotient and remainder. *)
Lemma divmod_unique : forall a b q r, 0 <= r < b -> a = b * q + r -> a / b = q /\ a mod b = r.
Proof.
  intros. split.
  - symmetry. eapply Z.div_unique_pos; eauto.
  - symmetry. eapply Z.mod_unique_pos; eauto.
Qed.

Lemma mod_eq_of : forall a b q r, 0 <= r < b -> a = b * q + r -> a mod b = r.
Proof. intros. eapply divmod_unique; eauto. Qed.
Lemma div_eq_of : forall a b q r, 0 <= r < b -> a = b * q + r -> a / b = q.
Proof. intros. eapply divmod_unique; eauto. Qed.

Lemma div_mod_sum : forall a b, 0 < b -> a = b * (a / b) + a mod b.
Proof. intros. apply Z.div_mod. lia. Qed.

Lemma div_pos_bound : forall a b c, 0 < b -> 0 <= a < b * c -> 0 <= a / b < c.
Proof.
  intros. split.
  - apply Z.div_pos; lia.
  - apply Z.div_lt_upper_bound; lia.
Qed.

(** Splitting a modulus: a mod (b*c) = a mod b + b * ((a/b) mod c). *)
Lemma mod_mul_split : forall a b c, 0 < b -> 0 < c ->
  a mod (b * c) = a mod b + b * ((a / b) mod c).
Proof. intros. apply Z.rem_mul_r; lia. Qed.

Lemma mod_mul_le : forall a b c, 0 < b -> 0 < c -> (a mod (b * c)) mod b = a mod b.
Proof.
  intros. rewrite mod_mul_split by lia.
  rewrite (Z.mul_comm b), Z.mod_add by lia.
  apply Z.mod_mod; lia.
Qed.

Lemma mod_mod_pow : forall a b m n, 0 < b -> 0 <= m <= n -> (a mod b ^ n) mod b ^ m = a mod b ^ m.
Proof.
  intros. replace n with (m + (n - m)) by lia.
  rewrite Z.pow_add_r by lia.
  apply mod_mul_le; apply Z.pow_pos_nonneg; lia.
Qed.

Lemma div_mul_div : forall a b c, 0 < b -> 0 < c -> a / (b * c) = a / b / c.
Proof. intros. symmetry. apply Z.div_div; lia. Qed.

Lemma land_ones_mod : forall a n, 0 <= n -> Z.land a (Z.ones n) = a mod 2 ^ n.
Proof. intros. apply Z.land_ones; lia. Qed.

Lemma ones_eq : forall n, Z.ones n = 2 ^ n - 1.
Proof. intros. rewrite Z.ones_equiv. lia. Qed.

(** Bits above the width of a bounded number are zero. *)
Lemma testbit_above : forall a n i, 0 <= a < 2 ^ n -> n <= i -> Z.testbit a i = false.
Proof.
  intros a n i [Ha Hn] Hi.
  destruct (Z_lt_le_dec n 0) as [|Hn0].
  { rewrite Z.pow_neg_r in Hn by lia. lia. }
  destruct (Z.eq_dec a 0) as [->|]. { apply Z.testbit_0_l. }
  apply Z.bits_above_log2; [lia|].
  enough (Z.log2 a < n) by lia.
  apply Z.log2_lt_pow2; lia.
Qed.

Lemma bounded_of_testbit : forall a n, 0 <= n -> 0 <= a ->
  (forall i, n <= i -> Z.testbit a i = false) -> a < 2 ^ n.
Proof.
  intros a n Hn Ha H.
  destruct (Z.eq_dec a 0) as [->|]. { apply pow2_gt0; lia. }
  apply Z.log2_lt_pow2; [lia|].
  destruct (Z_lt_le_dec (Z.log2 a) n); auto.
  specialize (H (Z.log2 a) l). rewrite Z.bit_log2 in H by lia. discriminate.
Qed.

Lemma lor_disjoint_add : forall a b, Z.land a b = 0 -> Z.lor a b = a + b.
Proof. intros. rewrite <- Z.lxor_lor by auto. symmetry. apply Z.add_nocarry_lxor; auto. Qed.

Lemma lor_shift_add : forall h l n, 0 <= n -> 0 <= l < 2 ^ n ->
  Z.lor (h * 2 ^ n) l = h * 2 ^ n + l.
Proof.
  intros. apply lor_disjoint_add.
  apply Z.bits_inj'. intros i Hi. rewrite Z.land_spec, Z.testbit_0_l.
  destruct (Z_lt_le_dec i n).
  - rewrite Z.mul_pow2_bits_low by lia. reflexivity.
  - rewrite (testbit_above l n i) by lia. apply andb_false_r.
Qed.

Lemma land_bound : forall a b n, 0 <= n -> 0 <= a -> 0 <= b < 2 ^ n -> 0 <= Z.land a b < 2 ^ n.
Proof.
  intros. assert (0 <= Z.land a b) by (apply Z.land_nonneg; lia).
  split; [lia|]. apply bounded_of_testbit; try lia.
  intros. rewrite Z.land_spec, (testbit_above b n) by lia. apply andb_false_r.
Qed.

Lemma land_bound_l : forall a b n, 0 <= n -> 0 <= b -> 0 <= a < 2 ^ n -> 0 <= Z.land a b < 2 ^ n.
Proof. intros. rewrite Z.land_comm. apply land_bound; lia. Qed.

Lemma land_le_l : forall a b, 0 <= a -> 0 <= b -> Z.land a b <= a.
Proof.
  intros a b Ha Hb.
  enough (0 <= a - Z.land a b) by lia.
  assert (E: a = Z.lor (Z.land a b) (Z.ldiff a b)).
  { apply Z.bits_inj'. intros i Hi. rewrite Z.lor_spec, Z.land_spec, Z.ldiff_spec.
    destruct (Z.testbit a i), (Z.testbit b i); reflexivity. }
  assert (D: Z.land (Z.land a b) (Z.ldiff a b) = 0).
  { apply Z.bits_inj'. intros i Hi. rewrite !Z.land_spec, Z.ldiff_spec, Z.testbit_0_l.
    destruct (Z.testbit a i), (Z.testbit b i); reflexivity. }
  rewrite lor_disjoint_add in E by auto.
  assert (0 <= Z.ldiff a b) by (apply Z.ldiff_nonneg; lia). lia.
Qed.

Lemma lor_bound : forall a b n, 0 <= n -> 0 <= a < 2 ^ n -> 0 <= b < 2 ^ n -> 0 <= Z.lor a b < 2 ^ n.
Proof.
  intros. assert (0 <= Z.lor a b) by (apply Z.lor_nonneg; lia).
  split; [lia|]. apply bounded_of_testbit; try lia.
  intros. rewrite Z.lor_spec, (testbit_above b n), (testbit_above a n) by lia. reflexivity.
Qed.

Lemma lxor_bound : forall a b n, 0 <= n -> 0 <= a < 2 ^ n -> 0 <= b < 2 ^ n -> 0 <= Z.lxor a b < 2 ^ n.
Proof.
  intros. assert (0 <= Z.lxor a b) by (apply Z.lxor_nonneg; lia).
  split; [lia|]. apply bounded_of_testbit; try lia.
  intros. rewrite Z.lxor_spec, (testbit_above b n), (testbit_above a n) by lia. reflexivity.
Qed.

Lemma lxor_ones : forall a n, 0 <= n -> 0 <= a < 2 ^ n -> Z.lxor a (Z.ones n) = 2 ^ n - 1 - a.
Proof.
  intros a n Hn Ha.
  assert (E: Z.lxor a (Z.ones n) + a = Z.ones n).
  { rewrite <- lor_disjoint_add.
    - apply Z.bits_inj'. intros i Hi. rewrite Z.lor_spec, Z.lxor_spec.
      destruct (Z_lt_le_dec i n).
      + rewrite Z.ones_spec_low by lia. destruct (Z.testbit a i); reflexivity.
      + rewrite Z.ones_spec_high by lia. rewrite (testbit_above a n) by lia. reflexivity.
    - apply Z.bits_inj'. intros i Hi. rewrite Z.land_spec, Z.lxor_spec, Z.testbit_0_l.
      destruct (Z_lt_le_dec i n).
      + rewrite Z.ones_spec_low by lia. destruct (Z.testbit a i); reflexivity.
      + rewrite (testbit_above a n) by lia. apply andb_false_r. }
  rewrite ones_eq in *. lia.
Qed.

Lemma lxor_mask_select : forall v0 v1 n, 0 <= n -> 0 <= v0 < 2 ^ n -> 0 <= v1 < 2 ^ n ->
  Z.lxor v0 (Z.land (Z.ones n) (Z.lxor v0 v1)) = v1.
Proof.
  intros. rewrite Z.land_comm, Z.land_ones by lia.
  rewrite Z.mod_small by (apply lxor_bound; lia).
  rewrite <- Z.lxor_assoc, Z.lxor_nilpotent, Z.lxor_0_l. reflexivity.
Qed.

(** Digit strings. *)
Lemma digits_val_app : forall b l1 l2,
  digits_val b (l1 ++ l2) = digits_val b l1 + b ^ zlen l1 * digits_val b l2.
Proof.
  unfold zlen. induction l1; intros; cbn [app digits_val length].
  - change (Z.of_nat 0) with 0. rewrite Z.pow_0_r. lia.
  - rewrite IHl1. rewrite Nat2Z.inj_succ, Z.pow_succ_r by lia. ring.
Qed.

Lemma digits_val_bound : forall b l, 0 < b -> digits_ok b l -> 0 <= digits_val b l < b ^ zlen l.
Proof.
  intros b l Hb. unfold zlen. induction l; intros Hl; cbn [digits_val length].
  - change (Z.of_nat 0) with 0. rewrite Z.pow_0_r. lia.
  - inversion Hl; subst. specialize (IHl H2).
    rewrite Nat2Z.inj_succ, Z.pow_succ_r by lia. nia.
Qed.

Lemma zlen_app : forall A (l1 l2 : list A), zlen (l1 ++ l2) = zlen l1 + zlen l2.
Proof. intros. unfold zlen. rewrite app_length. lia. Qed.
Lemma zlen_nonneg : forall A (l : list A), 0 <= zlen l.
Proof. intros. unfold zlen. lia. Qed.
Lemma zlen_rev : forall A (l : list A), zlen (rev l) = zlen l.
Proof. intros. unfold zlen. rewrite rev_length. lia. Qed.
Lemma zlen_nil : forall A, zlen (@nil A) = 0.
Proof. reflexivity. Qed.
Lemma zlen_cons : forall A (x : A) l, zlen (x :: l) = 1 + zlen l.
Proof. intros. unfold zlen. cbn [length]. lia. Qed.
Lemma zlen_repeat : forall A (x : A) n, zlen (repeat x n) = Z.of_nat n.
Proof. intros. unfold zlen. rewrite repeat_length. lia. Qed.

Lemma digits_ok_app : forall b l1 l2, digits_ok b (l1 ++ l2) <-> digits_ok b l1 /\ digits_ok b l2.
Proof. intros. unfold digits_ok. apply Forall_app. Qed.
Lemma digits_ok_rev : forall b l, digits_ok b l -> digits_ok b (rev l).
Proof. intros. unfold digits_ok in *. apply Forall_rev; auto. Qed.
Lemma digits_ok_firstn : forall b l n, digits_ok b l -> digits_ok b (firstn n l).
Proof. intros. rewrite <- (firstn_skipn n l) in H. apply digits_ok_app in H. tauto. Qed.
Lemma digits_ok_skipn : forall b l n, digits_ok b l -> digits_ok b (skipn n l).
Proof. intros. rewrite <- (firstn_skipn n l) in H. apply digits_ok_app in H. tauto. Qed.
Lemma digits_ok_repeat0 : forall b n, 0 < b -> digits_ok b (repeat 0 n).
Proof. intros. unfold digits_ok. apply Forall_forall. intros x Hx. apply repeat_spec in Hx. lia. Qed.

Lemma digits_val_repeat0 : forall b n, digits_val b (repeat 0 n) = 0.
Proof. induction n; cbn [repeat digits_val]; try rewrite IHn; lia. Qed.

Lemma zlen_firstn : forall A (l : list A) n, (n <= length l)%nat -> zlen (firstn n l) = Z.of_nat n.
Proof. intros. unfold zlen. rewrite firstn_length_le; lia. Qed.
Lemma zlen_skipn : forall A (l : list A) n, (n <= length l)%nat -> zlen (skipn n l) = zlen l - Z.of_nat n.
Proof. intros. unfold zlen. rewrite skipn_length. lia. Qed.

(** Low and high parts of a digit string. *)
Lemma digits_val_firstn : forall b l n, 0 < b -> digits_ok b l -> (n <= length l)%nat ->
  digits_val b (firstn n l) = digits_val b l mod b ^ Z.of_nat n.
Proof.
  intros b l n Hb Hl Hn.
  rewrite <- (firstn_skipn n l) at 2. rewrite digits_val_app, zlen_firstn by auto.
  symmetry. eapply mod_eq_of with (q := digits_val b (skipn n l)); [|ring].
  pose proof (digits_val_bound b (firstn n l) Hb (digits_ok_firstn _ _ _ Hl)).
  rewrite zlen_firstn in H by auto. lia.
Qed.
Lemma digits_val_skipn : forall b l n, 0 < b -> digits_ok b l -> (n <= length l)%nat ->
  digits_val b (skipn n l) = digits_val b l / b ^ Z.of_nat n.
Proof.
  intros b l n Hb Hl Hn.
  rewrite <- (firstn_skipn n l) at 2. rewrite digits_val_app, zlen_firstn by auto.
  symmetry. eapply div_eq_of with (r := digits_val b (firstn n l)); [|ring].
  pose proof (digits_val_bound b (firstn n l) Hb (digits_ok_firstn _ _ _ Hl)).
  rewrite zlen_firstn in H by auto. lia.
Qed.

Lemma b2z_range : forall b, 0 <= b2z b <= 1.
Proof. destruct b; cbn; lia. Qed.

(** Guided non-linear facts: cheaper than [nia] in large contexts. *)
Lemma mul_nn : forall a b, 0 <= a -> 0 <= b -> 0 <= a * b.
Proof. intros. apply Z.mul_nonneg_nonneg; lia. Qed.
Lemma mul_le_l : forall c a b, 0 <= c -> a <= b -> c * a <= c * b.
Proof. intros. apply Z.mul_le_mono_nonneg_l; lia. Qed.
Lemma mul_lt_l : forall c a b, 0 < c -> a < b -> c * a < c * b.
Proof. intros. apply Z.mul_lt_mono_pos_l; lia. Qed.
Lemma mul_le_cancel : forall c a b, 0 < c -> c * a <= c * b -> a <= b.
Proof. intros. apply Z.mul_le_mono_pos_l in H0; lia. Qed.
Lemma mul_lt_cancel : forall c a b, 0 < c -> c * a < c * b -> a < b.
Proof. intros. apply Z.mul_lt_mono_pos_l in H0; lia. Qed.
Lemma mul_small_0 : forall c a, - c < c * a < c -> a = 0.
Proof. intros. nia. Qed.
(** Two-digit uniqueness. *)
Lemma digit_unique : forall b a0 d0 a1 d1, 0 <= a0 < b -> 0 <= a1 < b ->
  d0 * b + a0 = d1 * b + a1 -> d0 = d1 /\ a0 = a1.
Proof. intros. assert (d0 = d1) by nia. subst. lia. Qed.
Lemma dig2_lt : forall a b d v, 0 <= a < v -> 0 <= d < b -> 0 <= a * b + d < v * b.
Proof. intros. nia. Qed.
Lemma mul_rng : forall a p e, 0 <= a < p -> 0 < e -> 0 <= a * e < p * e.
Proof. intros. nia. Qed.

(** Pose a lemma and discharge its premises with [lia] or [auto]. *)
Ltac feed H :=
  repeat match type of H with
  | ?P -> ?R => let h := fresh in
      first [ assert (h : P) by lia | assert (h : P) by auto | assert (h : P) by (split; auto; lia) ]; specialize (H h); clear h
  end.
Tactic Notation "pf" uconstr(t) "as" ident(H) := pose proof t as H; feed H.
Tactic Notation "pf" uconstr(t) := let H := fresh "F" in pose proof t as H; feed H.
