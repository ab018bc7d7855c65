(** Proofs of the limb theorems in the shape stated in ThmLimb.v. *)
From Coq Require Import ZArith List Bool Lia.
Require Import Verif.Spec Verif.Base Verif.Monad Verif.Wp Verif.ModelLimb Verif.LimbFacts Verif.LimbFacts2 Verif.LDivFacts.
Import ListNotations.
Open Scope Z_scope.

(** A specification that determines the result. *)
Lemma wp_ret_eq : forall A (m : M A) r, wp m (fun x => x = r) -> returns m r.
Proof. intros A m r H. apply wp_returns in H. destruct H as (a & H & ->). exact H. Qed.

Lemma is_zero_correct : forall (c : cfg) v, 0 <= v < B ->
  returns (ct_is_zero_l v) (b2z (v =? 0)) /\ returns (ct_is_nonzero_l v) (b2z (negb (v =? 0))).
Proof. intros. split; apply wp_ret_eq; [apply wp_is_zero|apply wp_is_nonzero]; auto. Qed.

Lemma comparisons_correct : forall (c : cfg) v0 v1, 0 <= v0 < B -> 0 <= v1 < B ->
  returns (ct_eq_l_l v0 v1) (chc (v0 =? v1)) /\
  returns (ct_neq_l_l v0 v1) (chc (negb (v0 =? v1))) /\
  returns (ct_lt_l_l v0 v1) (chc (v0 <? v1)) /\
  returns (ct_leq_l_l v0 v1) (chc (v0 <=? v1)) /\
  returns (ct_gt_l_l v0 v1) (chc (v0 >? v1)) /\
  returns (ct_geq_l_l v0 v1) (chc (v0 >=? v1)) /\
  returns (ct_lt_or_eq_l_l v0 v1) (b2z (v0 <? v1), b2z (v0 =? v1)).
Proof.
  intros. rewrite Z.gtb_ltb, Z.geb_leb.
  repeat split; apply wp_ret_eq; auto using wp_eq_l, wp_neq_l, wp_lt_l, wp_leq_l, wp_gt_l, wp_geq_l, wp_lt_or_eq_l.
Qed.

Lemma choice_correct : forall (c : cfg) b b' v0 v1, 0 <= v0 < B -> 0 <= v1 < B ->
  returns (lc_new (b2z b)) (chc b) /\
  lc_unwrap (chc b) = b2z b /\
  lc_select (chc b) v0 v1 = (if b then v1 else v0) /\
  lc_not (chc b) = chc (negb b) /\
  lc_and (chc b) (chc b') = chc (b && b') /\
  lc_or (chc b) (chc b') = chc (b || b').
Proof.
  intros. repeat split; auto using lc_unwrap_chc, lc_select_chc, lc_not_chc, lc_and_chc, lc_or_chc.
  apply wp_ret_eq. eapply wp_lc_new; eauto.
Qed.

Lemma choice_usize_correct : forall (c : cfg) b v0 v1, 0 <= v0 < 2 ^ UW -> 0 <= v1 < 2 ^ UW ->
  lc_select_usize (chc b) v0 v1 = if b then v1 else v0.
Proof. intros. apply lc_select_usize_chc; auto. Qed.

Lemma lsb_mask_correct : forall (c : cfg) n, 0 <= n <= W -> returns (ct_lsb_mask_l n) (2 ^ n - 1).
Proof. intros. apply wp_ret_eq, wp_lsb_mask; auto. Qed.

Lemma negate_correct : forall (c : cfg) v, 0 <= v < B -> ct_negate_l v = (- v) mod B.
Proof. intros. apply ct_negate_eq; auto. Qed.

Lemma arith_rshift_correct : forall (c : cfg) v s, 0 <= v < B -> 0 <= s <= W ->
  returns (ct_arithmetic_rshift_l v s) ((two_compl W v / 2 ^ s) mod B).
Proof. intros. apply wp_ret_eq, wp_arith_rshift; auto. Qed.

Lemma add_l_correct : forall (c : cfg) v0 v1 carry, 0 <= v0 < B -> 0 <= v1 < B -> 0 <= carry <= 1 ->
  (exists k r, returns (ct_add_l_l v0 v1) (k, r) /\ 0 <= r < B /\ 0 <= k <= 1 /\ v0 + v1 = k * B + r) /\
  (exists k r, returns (ct_add_l_l_c v0 v1 carry) (k, r) /\ 0 <= r < B /\ 0 <= k <= 1 /\
     v0 + v1 + carry = k * B + r).
Proof.
  intros c v0 v1 k H0 H1 Hk. split.
  - assert (X : wp (ct_add_l_l v0 v1) (fun '(k, r) => 0 <= r < B /\ 0 <= k <= 1 /\ v0 + v1 = k * B + r)).
    { apply wp_add_l; auto. unfold isl. intros. lia. }
    apply wp_returns in X. destruct X as ([k' r] & X & Y). eauto.
  - assert (X : wp (ct_add_l_l_c v0 v1 k) (fun '(k', r) => 0 <= r < B /\ 0 <= k' <= 1 /\ v0 + v1 + k = k' * B + r)).
    { apply wp_add_c; auto. unfold isl. intros. lia. }
    apply wp_returns in X. destruct X as ([k' r] & X & Y). eauto.
Qed.

Lemma sub_l_correct : forall (c : cfg) v0 v1 borrow, 0 <= v0 < B -> 0 <= v1 < B -> 0 <= borrow <= 1 ->
  (exists k r, returns (ct_sub_l_l v0 v1) (k, r) /\ 0 <= r < B /\ 0 <= k <= 1 /\ v0 - v1 = r - k * B) /\
  (exists k r, returns (ct_sub_l_l_b v0 v1 borrow) (k, r) /\ 0 <= r < B /\ 0 <= k <= 1 /\
     v0 - v1 - borrow = r - k * B).
Proof.
  intros c v0 v1 k H0 H1 Hk. split.
  - assert (X : wp (ct_sub_l_l v0 v1) (fun '(k, r) => 0 <= r < B /\ 0 <= k <= 1 /\ v0 - v1 = r - k * B)).
    { apply wp_sub_l; auto. unfold isl. intros r Hr E. assert (F := b2z_range (v0 <? v1)). lia. }
    apply wp_returns in X. destruct X as ([k' r] & X & Y). eauto.
  - assert (X : wp (ct_sub_l_l_b v0 v1 k) (fun '(k', r) => 0 <= r < B /\ 0 <= k' <= 1 /\ v0 - v1 - k = r - k' * B)).
    { apply wp_sub_b; auto. unfold isl. intros. lia. }
    apply wp_returns in X. destruct X as ([k' r] & X & Y). eauto.
Qed.

Lemma mul_l_correct : forall (c : cfg) v0 v1, 0 <= v0 < B -> 0 <= v1 < B ->
  exists h l, returns (ct_mul_l_l v0 v1) (h, l) /\ 0 <= h < B /\ 0 <= l < B /\ v0 * v1 = h * B + l.
Proof.
  intros c v0 v1 H0 H1.
  assert (X : wp (ct_mul_l_l v0 v1) (fun '(h, l) => 0 <= h < B /\ 0 <= l < B /\ v0 * v1 = h * B + l)).
  { apply wp_mul_l; auto. }
  apply wp_returns in X. destruct X as ([h l] & X & Y). eauto.
Qed.

Lemma mul_add_correct : forall (c : cfg) op0 v0 v1 carry,
  0 <= op0 < B -> 0 <= v0 < B -> 0 <= v1 < B -> 0 <= carry < B ->
  exists h l, returns (ct_mul_add_l_l_l_c op0 v0 v1 carry) (h, l) /\ 0 <= h < B /\ 0 <= l < B /\
    op0 + v0 * v1 + carry = h * B + l.
Proof.
  intros c op0 v0 v1 k Ho H0 H1 Hk.
  assert (X : wp (ct_mul_add_l_l_l_c op0 v0 v1 k) (fun '(h, l) => 0 <= h < B /\ 0 <= l < B /\ op0 + v0 * v1 + k = h * B + l)).
  { apply wp_mul_add; auto. }
  apply wp_returns in X. destruct X as ([h l] & X & Y). eauto.
Qed.

Lemma mul_sub_correct : forall (c : cfg) op0 v0 v1 borrow,
  0 <= op0 < B -> 0 <= v0 < B -> 0 <= v1 < B -> 0 <= borrow < B ->
  exists h l, returns (ct_mul_sub_l_l_l_b op0 v0 v1 borrow) (h, l) /\ 0 <= h < B /\ 0 <= l < B /\
    op0 - v0 * v1 - borrow = l - h * B.
Proof.
  intros c op0 v0 v1 k Ho H0 H1 Hk.
  assert (X : wp (ct_mul_sub_l_l_l_b op0 v0 v1 k) (fun '(h, l) => 0 <= h < B /\ 0 <= l < B /\ op0 - v0 * v1 - k = l - h * B)).
  { apply wp_mul_sub; auto. }
  apply wp_returns in X. destruct X as ([h l] & X & Y). eauto.
Qed.

Lemma dig_eq : forall b h l h' l', 0 <= l < b -> 0 <= l' < b -> h * b + l = h' * b + l' -> (h, l) = (h', l').
Proof. intros. destruct (digit_unique b l h l' h'); auto. congruence. Qed.

Lemma backends_agree : forall usz dbg v0 v1 carry,
  let asm := mkcfg true true usz dbg in let gen := mkcfg true false usz dbg in
  0 <= v0 < 2 ^ 64 -> 0 <= v1 < 2 ^ 64 -> 0 <= carry <= 1 ->
  snd (@ct_add_l_l_c asm v0 v1 carry) = snd (@ct_add_l_l_c gen v0 v1 carry) /\
  snd (@ct_sub_l_l_b asm v0 v1 carry) = snd (@ct_sub_l_l_b gen v0 v1 carry) /\
  snd (@ct_mul_l_l asm v0 v1) = snd (@ct_mul_l_l gen v0 v1) /\
  snd (@ct_is_zero_l asm v0) = snd (@ct_is_zero_l gen v0) /\
  snd (@ct_is_nonzero_l asm v0) = snd (@ct_is_nonzero_l gen v0).
Proof.
  intros usz dbg v0 v1 k asm gen H0 H1 Hk.
  assert (BA : @B asm = 2 ^ 64) by reflexivity. assert (BG : @B gen = 2 ^ 64) by reflexivity.
  repeat split.
  - destruct (proj2 (add_l_correct asm v0 v1 k H0 H1 Hk)) as (ka & ra & Ra & A1 & A2 & A3).
    destruct (proj2 (add_l_correct gen v0 v1 k H0 H1 Hk)) as (kg & rg & Rg & G1 & G2 & G3).
    rewrite BA in *; rewrite BG in *. rewrite Ra, Rg. f_equal. eapply dig_eq; eauto; lia.
  - destruct (proj2 (sub_l_correct asm v0 v1 k H0 H1 Hk)) as (ka & ra & Ra & A1 & A2 & A3).
    destruct (proj2 (sub_l_correct gen v0 v1 k H0 H1 Hk)) as (kg & rg & Rg & G1 & G2 & G3).
    rewrite BA in *; rewrite BG in *. rewrite Ra, Rg. f_equal.
    assert (E : (-ka, ra) = (-kg, rg)) by (eapply dig_eq; eauto; lia). inversion E. f_equal. lia.
  - destruct (mul_l_correct asm v0 v1 H0 H1) as (ka & ra & Ra & A1 & A2 & A3).
    destruct (mul_l_correct gen v0 v1 H0 H1) as (kg & rg & Rg & G1 & G2 & G3).
    rewrite BA in *; rewrite BG in *. rewrite Ra, Rg. f_equal. eapply dig_eq; eauto; lia.
  - destruct (is_zero_correct asm v0 H0) as [A _]. destruct (is_zero_correct gen v0 H0) as [G _].
    rewrite A, G. reflexivity.
  - destruct (is_zero_correct asm v0 H0) as [_ A]. destruct (is_zero_correct gen v0 H0) as [_ G].
    rewrite A, G. reflexivity.
Qed.

Lemma ld_ok_unique : forall (c : cfg) d d' v, ld_ok d v -> ld_ok d' v -> d = d'.
Proof.
  intros c [m v1 w] [m' v1' w'] v (H & E1 & E2 & E3) (H' & E1' & E2' & E3').
  cbn [ld_m ld_v ld_v_width] in *. congruence.
Qed.

Lemma qr_eq : forall u v q r, 0 <= r < v -> u = q * v + r -> (q, r) = (u / v, u mod v).
Proof.
  intros. destruct (divmod_unique u v q r); auto; [lia|]. congruence.
Qed.

Lemma ct_division_correct : forall (c : cfg) v, 0 < v < B ->
  exists d, returns (ct_l_divisor_new v) (Ok d) /\ returns (ct_l_divisor_nonct_new v) (Ok d) /\
    forall uh ul, 0 <= ul < B -> 0 <= uh < v ->
      returns (ct_l_divisor_do_div d (uh, ul)) ((uh * B + ul) / v, (uh * B + ul) mod v).
Proof.
  intros c v Hv.
  assert (X : wp (ct_l_divisor_new v) (fun r => exists d, r = Ok d /\ ld_ok d v)).
  { apply wp_l_divisor_new; [unfold isl; lia|lia|eauto]. }
  assert (Y : wp (ct_l_divisor_nonct_new v) (fun r => exists d, r = Ok d /\ ld_ok d v)).
  { apply wp_l_divisor_nonct_new; [unfold isl; lia|lia|eauto]. }
  apply wp_returns in X. destruct X as (r & X & d & -> & Hd).
  apply wp_returns in Y. destruct Y as (r & Y & d' & -> & Hd').
  assert (d' = d) by (eapply ld_ok_unique; eauto). subst d'.
  exists d. split; [auto|]. split; [auto|]. intros uh ul H0 H1.
  apply wp_ret_eq. eapply wp_l_divisor_do_div; eauto. intros. apply qr_eq; auto.
Qed.

Lemma nonct_division_correct : forall (c : cfg) v, 0 < v < B ->
  exists d, returns (nonct_l_divisor_new v) (Ok d) /\
    forall uh ul, 0 <= ul < B -> 0 <= uh < v ->
      returns (nonct_l_divisor_do_div d (uh, ul)) ((uh * B + ul) / v, (uh * B + ul) mod v).
Proof.
  intros c v Hv.
  assert (X : wp (nonct_l_divisor_new v) (fun r => exists d, r = Ok d /\ nd_ok d v)).
  { apply wp_nonct_new; [unfold isl; lia|lia|eauto]. }
  apply wp_returns in X. destruct X as (r & X & d & -> & Hd).
  exists d. split; [auto|]. intros uh ul H0 H1.
  apply wp_ret_eq. eapply wp_nonct_do_div; eauto. intros. apply qr_eq; auto.
Qed.

Lemma zero_divisor_correct : forall (c : cfg),
  returns (ct_l_divisor_new 0) (Err LDivisorIsZero) /\
  returns (ct_l_divisor_nonct_new 0) (Err LDivisorIsZero) /\
  returns (nonct_l_divisor_new 0) (Err LDivisorIsZero).
Proof.
  intros c. split; [|split]; apply wp_ret_eq.
  - apply wp_l_divisor_new; [apply isl_0|auto|congruence].
  - apply wp_l_divisor_nonct_new; [apply isl_0|auto|congruence].
  - apply wp_nonct_new; [apply isl_0|auto|congruence].
Qed.

Lemma inv_unique : forall m v r r', 0 < m -> 0 <= r < m -> 0 <= r' < m ->
  (v * r) mod m = 1 -> (v * r') mod m = 1 -> r' = r.
Proof.
  intros m v r r' Hm Hr Hr' E E'.
  assert (r' mod m = r mod m).
  { replace r' with (r' * 1) at 1 by lia. rewrite <- E at 1. rewrite Zmult_mod_idemp_r.
    replace (r' * (v * r)) with (r * (v * r')) by ring. rewrite <- Zmult_mod_idemp_r, E'. f_equal. lia. }
  rewrite !Z.mod_small in H by lia. auto.
Qed.

Lemma inv_mod_l_correct : forall (c : cfg) v, 0 <= v < B -> Z.odd v = true ->
  exists r, returns (ct_inv_mod_l v) r /\ 0 <= r < B /\ (v * r) mod B = 1 /\
    forall r', 0 <= r' < B -> (v * r') mod B = 1 -> r' = r.
Proof.
  intros c v Hv Ho.
  assert (X : wp (ct_inv_mod_l v) (fun r => 0 <= r < B /\ (v * r) mod B = 1)).
  { apply wp_inv_l; auto. rewrite Zmod_odd, Ho. reflexivity. }
  apply wp_returns in X. destruct X as (r & X & Hr & E). exists r. repeat split; auto; try lia.
  intros. eapply inv_unique; eauto. apply B_pos.
Qed.

Lemma nbits_is_width : forall v, 0 <= v -> is_bit_width v (nbits v).
Proof.
  intros v Hv. destruct (Z.eq_dec v 0) as [->|]; [left; auto|right].
  split; [apply nbits_pos; lia|apply nbits_spec; lia].
Qed.

Lemma last_set_bit_correct : forall (c : cfg) v, 0 <= v < B ->
  exists n, returns (ct_find_last_set_bit_l v) n /\ is_bit_width v n.
Proof.
  intros. exists (nbits v). split; [|apply nbits_is_width; lia]. apply wp_ret_eq, wp_fls; auto.
Qed.

(** Bytes from bits. *)
Lemma nbytes_spec : forall v, 0 <= v -> let n := (nbits v + 7) / 8 in
  v = 0 /\ n = 0 \/ 0 < n /\ 256 ^ (n - 1) <= v < 256 ^ n.
Proof.
  intros v Hv n. destruct (Z.eq_dec v 0) as [->|]; [left; auto|right].
  assert (Hs := nbits_spec v ltac:(lia)). assert (Hp := nbits_pos v ltac:(lia)).
  assert (D : nbits v + 7 = 8 * n + (nbits v + 7) mod 8) by (apply Z.div_mod; lia).
  assert (M := Z.mod_pos_bound (nbits v + 7) 8 ltac:(lia)).
  assert (0 < n) by lia. split; auto.
  change 256 with (2 ^ 8). rewrite <- !Z.pow_mul_r by lia. split.
  - assert (2 ^ (8 * (n - 1)) <= 2 ^ (nbits v - 1)) by (apply Z.pow_le_mono_r; lia). lia.
  - assert (2 ^ nbits v <= 2 ^ (8 * n)) by (apply Z.pow_le_mono_r; lia). lia.
Qed.

Lemma last_set_byte_correct : forall (c : cfg) v, 0 <= v < B ->
  exists n, returns (ct_find_last_set_byte_l v) n /\
    (v = 0 /\ n = 0 \/ 0 < n /\ 256 ^ (n - 1) <= v < 256 ^ n).
Proof.
  intros. exists ((nbits v + 7) / 8). split; [|apply nbytes_spec; lia]. apply wp_ret_eq, wp_fls_byte; auto.
Qed.

Lemma is_ffs_lowest : forall v n, is_ffs v n -> is_lowest_set_bit v n.
Proof.
  intros v n (Hn & H1 & H2). split; auto. split.
  - rewrite Z.testbit_eqb by lia. rewrite H2. reflexivity.
  - intros i Hi. assert (E := div_mod_sum v (2 ^ n) (pow2_gt0 n Hn)). rewrite H1, Z.add_0_r in E. rewrite E.
    rewrite Z.mul_comm. apply Z.mul_pow2_bits_low. lia.
Qed.

Lemma first_set_bit_correct : forall (c : cfg) v, 0 <= v < B ->
  exists n, returns (ct_find_first_set_bit_l v) n /\
    (v = 0 /\ n = W \/ v <> 0 /\ is_lowest_set_bit v n).
Proof.
  intros c v Hv.
  assert (X : wp (ct_find_first_set_bit_l v) (fun n => v = 0 /\ n = W \/ v <> 0 /\ is_lowest_set_bit v n)).
  { apply wp_ffs; auto. intros. right. split; auto. apply is_ffs_lowest; auto. }
  apply wp_returns in X. auto.
Qed.

Lemma usize_comparisons_correct : forall (c : cfg) v0 v1, 0 <= v0 < 2 ^ UW -> 0 <= v1 < 2 ^ UW ->
  returns (ct_eq_usize_usize v0 v1) (chc (v0 =? v1)) /\
  returns (ct_lt_usize_usize v0 v1) (chc (v0 <? v1)) /\
  returns (ct_leq_usize_usize v0 v1) (chc (v0 <=? v1)) /\
  returns (ct_gt_usize_usize v0 v1) (chc (v0 >? v1)) /\
  returns (ct_geq_usize_usize v0 v1) (chc (v0 >=? v1)).
Proof.
  intros. rewrite Z.gtb_ltb, Z.geb_leb.
  repeat split; apply wp_ret_eq; auto using wp_eq_usize, wp_lt_usize, wp_leq_usize, wp_gt_usize, wp_geq_usize.
Qed.
