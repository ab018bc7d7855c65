(** Facts about the buffer primitives: limb access, clearing. *)
From Coq Require Import ZArith List Bool Lia.
Require Import Verif.Spec Verif.Monad Verif.Base Verif.Wp Verif.ModelLimb Verif.LimbFacts Verif.LimbFacts2
  Verif.ModelBuf Verif.SpecBuf.
Import ListNotations.
Open Scope Z_scope.

(** ** Lists *)
Lemma zlen_zrepeat : forall A (x : A) n, 0 <= n -> zlen (zrepeat x n) = n.
Proof. intros. unfold zrepeat. rewrite zlen_repeat. lia. Qed.

Lemma firstn_length_z : forall A (l : list A) n, 0 <= n <= zlen l -> zlen (firstn (Z.to_nat n) l) = n.
Proof. intros. rewrite zlen_firstn; unfold zlen in *; lia. Qed.
Lemma seg_length_z : forall A (l : list A) a n, 0 <= a -> 0 <= n -> a + n <= zlen l ->
  zlen (firstn (Z.to_nat n) (skipn (Z.to_nat a) l)) = n.
Proof. intros. apply firstn_length_z. rewrite zlen_skipn; unfold zlen in *; lia. Qed.

Lemma splice_length : forall A (l s : list A) a, 0 <= a -> a + zlen s <= zlen l ->
  length (splice l a s) = length l.
Proof.
  intros. unfold splice, zlen in *. rewrite !app_length, firstn_length, skipn_length. lia.
Qed.
Lemma splice_zlen : forall A (l s : list A) a, 0 <= a -> a + zlen s <= zlen l ->
  zlen (splice l a s) = zlen l.
Proof. intros. unfold zlen at 1. rewrite splice_length by auto. reflexivity. Qed.

Lemma splice_ok : forall b l s a, digits_ok b l -> digits_ok b s -> digits_ok b (splice l a s).
Proof.
  intros. unfold splice. apply digits_ok_app. split; [apply digits_ok_firstn; auto|].
  apply digits_ok_app. split; auto. apply digits_ok_skipn; auto.
Qed.

(** Value of a segment of a digit string. *)
Lemma seg_val : forall b l a n, 0 < b -> digits_ok b l -> 0 <= a -> 0 <= n -> a + n <= zlen l ->
  digits_val b (firstn (Z.to_nat n) (skipn (Z.to_nat a) l)) = (digits_val b l / b ^ a) mod b ^ n.
Proof.
  intros. assert (Z.to_nat a <= length l)%nat by (unfold zlen in *; lia).
  rewrite digits_val_firstn, digits_val_skipn; auto.
  - rewrite !Z2Nat.id by lia. reflexivity.
  - apply digits_ok_skipn; auto.
  - rewrite skipn_length. unfold zlen in *. lia.
Qed.

Lemma skipn_add : forall A (l : list A) n m, skipn (n + m) l = skipn m (skipn n l).
Proof. induction l; intros; destruct n; cbn [skipn Nat.add]; auto. rewrite skipn_nil. auto. Qed.

(** Replacing a segment of a digit string. *)
Lemma splice_val : forall b l s a, 0 < b -> digits_ok b l -> 0 <= a -> a + zlen s <= zlen l ->
  digits_val b (splice l a s) =
  digits_val b l + (digits_val b s - (digits_val b l / b ^ a) mod b ^ zlen s) * b ^ a.
Proof.
  intros b l s a Hb Hl Ha Hs.
  rewrite <- seg_val by (auto; apply zlen_nonneg).
  unfold splice. rewrite skipn_add.
  set (na := Z.to_nat a). set (r := skipn na l).
  assert (E : digits_val b l = digits_val b (firstn na l) +
     b ^ a * (digits_val b (firstn (length s) r) + b ^ zlen s * digits_val b (skipn (length s) r))).
  { rewrite <- (firstn_skipn na l) at 1. rewrite digits_val_app.
    unfold na at 2. rewrite firstn_length_z by (unfold zlen in *; lia).
    fold r. rewrite <- (firstn_skipn (length s) r) at 1. rewrite digits_val_app.
    f_equal. f_equal. f_equal. f_equal. f_equal. rewrite zlen_firstn; [reflexivity|].
    unfold r, na. rewrite skipn_length. unfold zlen in *. lia. }
  rewrite E, !digits_val_app. unfold na at 2. rewrite firstn_length_z by (unfold zlen in *; lia).
  replace (Z.to_nat (zlen s)) with (length s) by (unfold zlen; lia). ring.
Qed.

Lemma rev_seg : forall A (l : list A) a b, 0 <= a <= b -> b <= zlen l ->
  rev (firstn (Z.to_nat (b - a)) (skipn (Z.to_nat a) l)) =
  firstn (Z.to_nat (b - a)) (skipn (Z.to_nat (zlen l - b)) (rev l)).
Proof.
  intros.
  replace (rev l) with (rev (firstn (Z.to_nat a) l ++ skipn (Z.to_nat a) l)) by (rewrite firstn_skipn; auto).
  rewrite rev_app_distr.
  rewrite skipn_app. rewrite rev_length, skipn_length.
  replace (Z.to_nat (zlen l - b) - (length l - Z.to_nat a))%nat with O by (unfold zlen in *; lia).
  cbn [skipn].
  rewrite <- (firstn_skipn (Z.to_nat (b - a)) (skipn (Z.to_nat a) l)) at 2.
  rewrite rev_app_distr.
  assert (L : length (rev (skipn (Z.to_nat (b - a)) (skipn (Z.to_nat a) l))) = Z.to_nat (zlen l - b)).
  { rewrite rev_length, !skipn_length. unfold zlen in *. lia. }
  rewrite <- L at 1. rewrite skipn_app, skipn_all, Nat.sub_diag. cbn [skipn app].
  set (r := rev (firstn _ _)).
  assert (Lr : length r = Z.to_nat (b - a)).
  { unfold r. rewrite rev_length, firstn_length, skipn_length. unfold zlen in *. lia. }
  rewrite firstn_app, Lr, Nat.sub_diag. cbn [firstn]. rewrite app_nil_r.
  rewrite <- Lr, firstn_all. reflexivity.
Qed.

Lemma rev_splice : forall A (l s : list A) a, 0 <= a -> a + zlen s <= zlen l ->
  rev (splice l a s) = splice (rev l) (zlen l - a - zlen s) (rev s).
Proof.
  intros. unfold splice. rewrite !rev_app_distr.
  rewrite <- app_assoc. f_equal; [|f_equal].
  - rewrite firstn_rev. do 2 f_equal. unfold zlen in *. lia.
  - rewrite rev_length, skipn_rev. do 2 f_equal. unfold zlen in *. lia.
Qed.

Lemma le_bytes_length : forall n v, length (le_bytes n v) = n.
Proof. induction n; intros; cbn [le_bytes length]; auto. Qed.
Lemma le_bytes_ok : forall n v, digits_ok 256 (le_bytes n v).
Proof.
  induction n; intros; cbn [le_bytes]; constructor; auto. apply Z.mod_pos_bound. lia. apply IHn.
Qed.
Lemma le_bytes_val : forall n v, digits_val 256 (le_bytes n v) = v mod 256 ^ Z.of_nat n.
Proof.
  induction n; intros; cbn [le_bytes digits_val].
  - change (256 ^ Z.of_nat 0) with 1. rewrite Z.mod_1_r. auto.
  - rewrite IHn, Nat2Z.inj_succ, Z.pow_succ_r by lia.
    rewrite mod_mul_split by (try apply pow_gt0; lia). auto.
Qed.

Lemma digits_inj : forall b l l', 0 < b -> digits_ok b l -> digits_ok b l' -> length l = length l' ->
  digits_val b l = digits_val b l' -> l = l'.
Proof.
  induction l; destruct l'; intros Hb Hl Hl' HL E; cbn [length digits_val] in *; try discriminate; auto.
  inversion Hl; inversion Hl'; subst.
  assert (X : digits_val b l = digits_val b l' /\ a = z) by (apply (digit_unique b); lia).
  destruct X. subst. f_equal. auto.
Qed.

Lemma nth_val : forall b l i, 0 < b -> digits_ok b l -> 0 <= i < zlen l ->
  nth (Z.to_nat i) l 0 = (digits_val b l / b ^ i) mod b.
Proof.
  intros b l i Hb Hl Hi.
  assert (E : firstn (Z.to_nat 1) (skipn (Z.to_nat i) l) = [nth (Z.to_nat i) l 0]).
  { rewrite <- (firstn_skipn (Z.to_nat i) l) at 2.
    assert (L : length (firstn (Z.to_nat i) l) = Z.to_nat i).
    { rewrite firstn_length. unfold zlen in *. lia. }
    rewrite app_nth2 by lia. rewrite L, Nat.sub_diag.
    destruct (skipn (Z.to_nat i) l) eqn:S.
    - exfalso. assert (length (skipn (Z.to_nat i) l) = O) by (rewrite S; auto).
      rewrite skipn_length in H. unfold zlen in *. lia.
    - reflexivity. }
  pose proof (seg_val b l i 1 Hb Hl). rewrite E in H. cbn [digits_val] in H.
  rewrite Z.pow_1_r in H. rewrite <- H by lia. lia.
Qed.

Section Facts.
Context {c : cfg}.

Lemma B_256' : B = 256 ^ LB.
Proof. apply B_256. Qed.
Lemma B_8LB : 2 ^ (8 * LB) = B.
Proof. reflexivity. Qed.
Lemma pow256 : forall n, 0 <= n -> 256 ^ n = 2 ^ (8 * n).
Proof. intros. rewrite Z.pow_mul_r by lia. reflexivity. Qed.
Lemma Bpow256 : forall i, 0 <= i -> B ^ i = 256 ^ (i * LB).
Proof. intros. rewrite B_256'. rewrite <- Z.pow_mul_r by (try lia; pose proof LB_pos; lia). f_equal. lia. Qed.
Lemma Bpow_pos : forall i, 0 <= i -> 0 < B ^ i.
Proof. intros. apply pow_gt0; auto. apply B_pos. Qed.
Lemma p256_pos : forall i, 0 <= i -> 0 < 256 ^ i.
Proof. intros. apply pow_gt0; lia. Qed.
Lemma Bpow_S : forall i, 0 <= i -> B ^ (i + 1) = B * B ^ i.
Proof. intros. apply pow_S. auto. Qed.
Lemma Bpow2 : forall i, 0 <= i -> B ^ i = 2 ^ (i * W).
Proof. intros. unfold B. pose proof W_pos. rewrite <- Z.pow_mul_r by lia. f_equal. lia. Qed.

(** ** Lengths *)
Lemma ct_mp_nlimbs_spec : forall len, 0 <= len ->
  0 <= ct_mp_nlimbs len /\ ct_mp_nlimbs len * LB - LB < len <= ct_mp_nlimbs len * LB.
Proof.
  intros. unfold ct_mp_nlimbs. pose proof LB_pos.
  pose proof (Z.div_mod (len + LB - 1) LB).
  pose proof (Z.mod_pos_bound (len + LB - 1) LB).
  assert (0 <= (len + LB - 1) / LB) by (apply Z.div_pos; lia). lia.
Qed.
Lemma mp_len_nonneg : forall b, 0 <= mp_len b.
Proof.
  intros [l|l|l]; cbn [mp_len]; pose proof (zlen_nonneg _ l); auto.
  pose proof LB_pos. apply mul_nn; lia.
Qed.
Lemma nlimbs_spec : forall b, 0 <= nlimbs b /\ nlimbs b * LB - LB < mp_len b <= nlimbs b * LB.
Proof. intros. apply ct_mp_nlimbs_spec. apply mp_len_nonneg. Qed.
Lemma nlimbs_nonneg : forall b, 0 <= nlimbs b.
Proof. intros. apply nlimbs_spec. Qed.
Lemma ct_mp_nlimbs_unique : forall len n, 0 <= n -> n * LB - LB < len <= n * LB -> ct_mp_nlimbs len = n.
Proof.
  intros. unfold ct_mp_nlimbs. pose proof LB_pos.
  eapply div_eq_of with (r := len + LB - 1 - LB * n); lia.
Qed.
Lemma nlimbs_NE : forall l, nlimbs (NE l) = zlen l.
Proof.
  intros. unfold nlimbs, mp_len. apply ct_mp_nlimbs_unique; [apply zlen_nonneg|].
  pose proof LB_pos. lia.
Qed.
Lemma nlimbs_lt : forall b i, 0 <= i -> (i < nlimbs b <-> i * LB < mp_len b).
Proof.
  intros. pose proof (nlimbs_spec b). destruct LB_cases as [E|E]; rewrite E in *; lia.
Qed.
Lemma mul_LB_lt : forall i n, i < n -> i * LB + LB <= n * LB.
Proof. intros. destruct LB_cases as [E|E]; rewrite E; lia. Qed.
Lemma nlimbs_full : forall b i, 0 <= i < nlimbs b - 1 -> (i + 1) * LB <= mp_len b.
Proof.
  intros. pose proof (nlimbs_spec b). destruct LB_cases as [E|E]; rewrite E in *; lia.
Qed.

(** ** Values *)
(** Little-endian digit list and base of a buffer. *)
Definition digs (b : mp) : list Z := match b with BE l => rev l | LE l | NE l => l end.
Definition base (b : mp) : Z := match b with BE _ | LE _ => 256 | NE _ => B end.

Lemma mpval_digs : forall b, mpval b = digits_val (base b) (digs b).
Proof. destruct b; reflexivity. Qed.
Lemma mp_ok_digs : forall b, mp_ok b -> digits_ok (base b) (digs b).
Proof. intros [l|l|l] [H _]; cbn in *; auto. apply digits_ok_rev. auto. Qed.
Lemma base_pos : forall b, 0 < base b.
Proof. destruct b; cbn; try lia. apply B_pos. Qed.
Lemma base_pow_len : forall b, base b ^ zlen (digs b) = 256 ^ mp_len b.
Proof.
  destruct b; cbn [base digs mp_len]; rewrite ?zlen_rev; auto.
  apply Bpow256. apply zlen_nonneg.
Qed.
Lemma mpval_bound : forall b, mp_ok b -> 0 <= mpval b < 256 ^ mp_len b.
Proof.
  intros. rewrite mpval_digs, <- base_pow_len.
  apply digits_val_bound; [apply base_pos|apply mp_ok_digs; auto].
Qed.
Lemma mpval_nonneg : forall b, mp_ok b -> 0 <= mpval b.
Proof. intros. apply mpval_bound. auto. Qed.
Lemma mpval_bound_B : forall b, mp_ok b -> 0 <= mpval b < B ^ nlimbs b.
Proof.
  intros. pose proof (mpval_bound b H). pose proof (nlimbs_spec b). pose proof (mp_len_nonneg b).
  rewrite Bpow256 by lia. split; [lia|].
  eapply Z.lt_le_trans; [apply H0|]. apply Z.pow_le_mono_r; lia.
Qed.
Lemma mp_inj : forall b b', mp_ok b -> mp_ok b' -> same_shape b b' -> mpval b = mpval b' -> b = b'.
Proof.
  intros b b' H H' [K L] E. pose proof (mp_ok_digs _ H) as D. pose proof (mp_ok_digs _ H') as D'.
  rewrite !mpval_digs in E. pose proof LB_pos.
  destruct b as [l|l|l], b' as [l'|l'|l']; try discriminate; cbn [base digs mp_len kind_of] in *; f_equal.
  - rewrite <- (rev_involutive l), <- (rev_involutive l'). f_equal.
    apply (digits_inj 256); auto; try lia. rewrite !rev_length. unfold zlen in L. lia.
  - apply (digits_inj 256); auto; try lia. unfold zlen in L. lia.
  - apply (digits_inj B); auto. apply B_pos. unfold zlen in L. apply Z.mul_reg_r in L; lia.
Qed.

Lemma shape_refl : forall b, same_shape b b.
Proof. split; auto. Qed.
Lemma shape_trans : forall a b d, same_shape a b -> same_shape b d -> same_shape a d.
Proof. intros a b d [] []; split; congruence. Qed.
Lemma shape_sym : forall a b, same_shape a b -> same_shape b a.
Proof. intros a b []; split; congruence. Qed.
Lemma shape_len : forall a b, same_shape a b -> mp_len b = mp_len a.
Proof. intros a b []; auto. Qed.
Lemma shape_nlimbs : forall a b, same_shape a b -> nlimbs b = nlimbs a.
Proof. intros. unfold nlimbs. erewrite shape_len; eauto. Qed.
Lemma shape_unaligned : forall a b, same_shape a b -> supports_unaligned b = supports_unaligned a.
Proof. intros a b [K _]. destruct a, b; cbn in *; congruence. Qed.

(** ** Limbs *)
Definition limb (b : mp) (i : Z) : Z := (mpval b / B ^ i) mod B.
(** Radix limit of limb [i]: [B], except for a partial high limb. *)
Definition lim (b : mp) (i : Z) : Z := 256 ^ Z.min LB (mp_len b - i * LB).

Lemma limb_isl : forall b i, isl (limb b i).
Proof. intros. apply isl_mod. Qed.
Lemma lim_pos : forall b i, 0 <= i < nlimbs b -> 0 < lim b i <= B.
Proof.
  intros. pose proof (proj1 (nlimbs_lt b i ltac:(lia)) ltac:(lia)). unfold lim. pose proof LB_pos.
  split; [apply p256_pos; lia|]. rewrite B_256'. apply Z.pow_le_mono_r; lia.
Qed.
Lemma lim_full : forall b i, (i + 1) * LB <= mp_len b -> lim b i = B.
Proof. intros. unfold lim. rewrite Z.min_l by lia. rewrite B_256'. auto. Qed.
Lemma lim_NE : forall l i, i < zlen l -> lim (NE l) i = B.
Proof. intros. apply lim_full. cbn [mp_len]. pose proof (mul_LB_lt i (zlen l) H). lia. Qed.
Lemma limb_lim : forall b i, mp_ok b -> 0 <= i < nlimbs b -> 0 <= limb b i < lim b i.
Proof.
  intros b i Hb Hi. pose proof (limb_isl b i) as [L0 L1]. unfold lim.
  pose proof LB_pos. pose proof (proj1 (nlimbs_lt b i ltac:(lia)) ltac:(lia)).
  destruct (Z.min_spec LB (mp_len b - i * LB)) as [[? ->]|[? ->]]; [rewrite <- B_256'; lia|].
  split; auto. pose proof (mpval_bound b Hb).
  assert (0 <= mpval b / B ^ i < 256 ^ (mp_len b - i * LB)).
  { apply div_pos_bound; [apply Bpow_pos; lia|]. rewrite Bpow256 by lia.
    rewrite <- Z.pow_add_r by lia. replace (i * LB + _) with (mp_len b) by lia. auto. }
  unfold limb. pose proof (Z.mod_le (mpval b / B ^ i) B (proj1 H3) B_pos). lia.
Qed.

(** Loads *)
Lemma bytes_limb : forall l i, digits_ok 256 l -> 0 <= i -> (i + 1) * LB <= zlen l ->
  le_val (firstn (Z.to_nat LB) (skipn (Z.to_nat (i * LB)) l)) = (le_val l / B ^ i) mod B.
Proof.
  intros. pose proof LB_pos. unfold le_val. rewrite seg_val; auto; try lia.
  rewrite B_256', <- Z.pow_mul_r by lia. f_equal. f_equal. f_equal. lia.
Qed.
Lemma bytes_limb_high : forall l i, digits_ok 256 l -> 0 <= i -> i * LB <= zlen l -> zlen l <= (i + 1) * LB ->
  le_val (skipn (Z.to_nat (i * LB)) l) = (le_val l / B ^ i) mod B.
Proof.
  intros. pose proof LB_pos. assert (0 <= i * LB) by (apply mul_nn; lia).
  unfold le_val. rewrite digits_val_skipn; auto; try lia; [|unfold zlen in *; lia].
  rewrite Z2Nat.id by lia. rewrite Bpow256 by lia. symmetry. apply Z.mod_small.
  pose proof (digits_val_bound 256 l ltac:(lia) H).
  apply div_pos_bound; [apply p256_pos; lia|]. split; [lia|]. eapply Z.lt_le_trans; [apply H5|].
  rewrite B_256', <- Z.pow_add_r by lia. apply Z.pow_le_mono_r; lia.
Qed.

Lemma rev_zrepeat : forall n (x : Z), rev (zrepeat x n) = zrepeat x n.
Proof.
  intros. unfold zrepeat. induction (Z.to_nat n); cbn [repeat rev]; auto. rewrite IHn0.
  clear. induction n0; cbn [repeat app]; auto. rewrite IHn0. auto.
Qed.
Lemma zrepeat_ok : forall b n, 0 < b -> digits_ok b (zrepeat 0 n).
Proof. intros. apply digits_ok_repeat0. auto. Qed.
Lemma zrepeat_val : forall b n, digits_val b (zrepeat 0 n) = 0.
Proof. intros. apply digits_val_repeat0. Qed.

Lemma wp_be_full : forall l i (Q : Z -> Prop), digits_ok 256 l -> 0 <= i -> (i + 1) * LB <= zlen l ->
  Q ((be_val l / B ^ i) mod B) -> wp (_be_mp_load_l_full l (zlen l - i * LB)) Q.
Proof.
  intros l i Q Hl Hi HL HQ. pose proof LB_pos. unfold _be_mp_load_l_full.
  apply wp_bind, wp_usub; [lia|]. apply wp_bind, wp_slice; [nia|nia|]. apply wp_ret.
  unfold be_val. rewrite rev_seg by nia.
  replace (zlen l - i * LB - (zlen l - i * LB - LB)) with LB by lia.
  replace (zlen l - (zlen l - i * LB)) with (i * LB) by lia.
  fold (le_val (firstn (Z.to_nat LB) (skipn (Z.to_nat (i * LB)) (rev l)))).
  rewrite bytes_limb; auto. apply digits_ok_rev; auto. rewrite zlen_rev. auto.
Qed.
Lemma wp_be_partial : forall l i (Q : Z -> Prop), digits_ok 256 l -> 0 <= i -> i * LB <= zlen l -> zlen l < (i + 1) * LB ->
  Q ((be_val l / B ^ i) mod B) -> wp (_be_mp_load_l_high_partial l (zlen l - i * LB)) Q.
Proof.
  intros l i Q Hl Hi HL HL' HQ. pose proof LB_pos. assert (0 <= i * LB) by (apply mul_nn; lia).
  unfold _be_mp_load_l_high_partial.
  apply wp_bind, wp_usub; [lia|]. apply wp_bind, wp_slice; [lia|lia|]. apply wp_ret.
  unfold be_val.
  set (s := firstn _ _).
  assert (Ls : zlen s = zlen l - i * LB).
  { unfold s. rewrite Z.sub_0_r. apply seg_length_z; lia. }
  rewrite rev_splice by (rewrite ?zlen_zrepeat; lia).
  rewrite rev_zrepeat, zlen_zrepeat by lia. rewrite Ls.
  replace (LB - (LB - (zlen l - i * LB)) - (zlen l - i * LB)) with 0 by lia.
  rewrite splice_val; try lia; [| apply zrepeat_ok; lia | rewrite zlen_rev, zlen_zrepeat; lia ].
  rewrite zrepeat_val, Z.pow_0_r, Z.div_1_r, Z.mod_0_l by (apply Z.pow_nonzero; [lia|apply zlen_nonneg]).
  replace (0 + (digits_val 256 (rev s) - 0) * 1) with (le_val (rev s)) by (unfold le_val; lia).
  unfold s. rewrite rev_seg by lia.
  replace (zlen l - (zlen l - i * LB)) with (i * LB) by lia. rewrite Z.sub_0_r.
  rewrite firstn_all2.
  - rewrite bytes_limb_high; auto. apply digits_ok_rev; auto. all: rewrite zlen_rev; lia.
  - rewrite skipn_length, rev_length. unfold zlen in *. lia.
Qed.
Lemma wp_le_full : forall l i (Q : Z -> Prop), digits_ok 256 l -> 0 <= i -> (i + 1) * LB <= zlen l ->
  Q ((le_val l / B ^ i) mod B) -> wp (_le_mp_load_l_full l (i * LB)) Q.
Proof.
  intros l i Q Hl Hi HL HQ. pose proof LB_pos. unfold _le_mp_load_l_full.
  apply wp_bind, wp_slice; [nia|nia|]. apply wp_ret.
  replace (i * LB + LB - i * LB) with LB by lia. rewrite bytes_limb; auto.
Qed.
Lemma wp_le_partial : forall l i (Q : Z -> Prop), digits_ok 256 l -> 0 <= i -> i * LB <= zlen l -> zlen l < (i + 1) * LB ->
  Q ((le_val l / B ^ i) mod B) -> wp (_le_mp_load_l_high_partial l (i * LB)) Q.
Proof.
  intros l i Q Hl Hi HL HL' HQ. pose proof LB_pos. assert (0 <= i * LB) by (apply mul_nn; lia).
  unfold _le_mp_load_l_high_partial.
  apply wp_bind, wp_usub; [lia|]. apply wp_bind, wp_slice; [lia|rewrite zlen_zrepeat; lia|].
  apply wp_bind, wp_slice; [lia|lia|]. apply wp_ret.
  set (s := firstn _ _).
  assert (Ls : zlen s = zlen l - i * LB). { unfold s. apply seg_length_z; lia. }
  unfold le_val. rewrite splice_val; try lia; [|apply zrepeat_ok; lia|rewrite zlen_zrepeat; lia].
  rewrite zrepeat_val, Z.pow_0_r, Z.div_1_r, Z.mod_0_l by (apply Z.pow_nonzero; [lia|apply zlen_nonneg]).
  replace (0 + (digits_val 256 s - 0) * 1) with (le_val s) by (unfold le_val; lia).
  unfold s. rewrite firstn_all2.
  - rewrite bytes_limb_high; auto. lia.
  - rewrite skipn_length. unfold zlen in *. lia.
Qed.

Lemma wp_load_full : forall b i (Q : Z -> Prop), mp_ok b -> 0 <= i -> (i + 1) * LB <= mp_len b ->
  Q (limb b i) -> wp (load_l_full b i) Q.
Proof.
  intros b i Q [Hb _] Hi HL HQ. pose proof LB_pos. unfold load_l_full. apply wp_bind, wp_tick.
  destruct b as [l|l|l]; cbn [mp_len] in *.
  - unfold be_mp_load_l_full. apply wp_bind, wp_dassert; [apply Z.ltb_lt; lia|].
    apply wp_bind, wp_usub; [lia|]. apply wp_be_full; auto.
  - unfold le_mp_load_l_full. apply wp_bind, wp_dassert; [apply Z.ltb_lt; lia|]. apply wp_le_full; auto.
  - assert (i < zlen l) by nia. apply wp_znth; [lia|]. rewrite (nth_val B); auto. apply B_pos.
Qed.
Lemma wp_load : forall b i (Q : Z -> Prop), mp_ok b -> 0 <= i < nlimbs b -> Q (limb b i) -> wp (load_l b i) Q.
Proof.
  intros b i Q Hok Hi HQ. pose proof LB_pos. destruct Hok as [Hb _].
  pose proof (proj1 (nlimbs_lt b i ltac:(lia)) ltac:(lia)) as HL.
  unfold load_l. apply wp_bind, wp_tick. destruct b as [l|l|l]; cbn [mp_len] in *.
  - unfold be_mp_load_l. apply wp_bind, wp_dassert; [apply Z.leb_le; lia|].
    apply wp_bind, wp_usub; [lia|]. apply wp_mif; intros E.
    + apply Z.leb_le in E. apply wp_be_full; auto; lia.
    + apply Z.leb_gt in E. apply wp_be_partial; auto; lia.
  - unfold le_mp_load_l. apply wp_bind, wp_dassert; [apply Z.ltb_lt; lia|].
    apply wp_mif; intros E.
    + apply Z.leb_le in E. apply wp_le_full; auto; lia.
    + apply Z.leb_gt in E. apply wp_le_partial; auto; lia.
  - rewrite nlimbs_NE in Hi. apply wp_znth; [lia|]. rewrite (nth_val B); auto. apply B_pos.
Qed.

(** Stores *)
Lemma to_le_len : forall v, zlen (to_le_bytes v) = LB.
Proof. intros. unfold zlen, to_le_bytes. rewrite le_bytes_length. pose proof LB_pos. lia. Qed.
Lemma to_le_val : forall v, digits_val 256 (to_le_bytes v) = v mod B.
Proof. intros. unfold to_le_bytes. rewrite le_bytes_val. pose proof LB_pos. rewrite Z2Nat.id, <- B_256' by lia. auto. Qed.
Lemma to_le_ok : forall v, digits_ok 256 (to_le_bytes v).
Proof. intros. apply le_bytes_ok. Qed.

(** A byte buffer seen as little-endian digits: overwrite [n] bytes of limb [i]. *)
Lemma store_bytes_val : forall l i n v, digits_ok 256 l -> 0 <= i -> 0 <= n <= LB -> i * LB + n <= zlen l ->
  (n = LB \/ zlen l = i * LB + n) -> 0 <= v < 256 ^ n ->
  digits_val 256 (splice l (i * LB) (firstn (Z.to_nat n) (to_le_bytes v))) =
  digits_val 256 l + (v - (digits_val 256 l / B ^ i) mod B) * B ^ i.
Proof.
  intros l i n v Hl Hi Hn HL Hc Hv. pose proof LB_pos. assert (0 <= i * LB) by (apply mul_nn; lia).
  assert (Lf : zlen (firstn (Z.to_nat n) (to_le_bytes v)) = n).
  { apply firstn_length_z. rewrite to_le_len. lia. }
  rewrite splice_val; auto; try lia. rewrite Lf.
  rewrite digits_val_firstn; auto; try lia; [|apply to_le_ok|unfold to_le_bytes; rewrite le_bytes_length; lia].
  rewrite to_le_val, Z2Nat.id by lia. rewrite (B_256') at 1.
  rewrite mod_mod_pow by lia. rewrite (Z.mod_small v) by lia. rewrite Bpow256 by lia.
  f_equal. f_equal. f_equal.
  destruct Hc as [->|Hc]; [rewrite B_256'; auto|].
  pose proof (digits_val_bound 256 l ltac:(lia) Hl).
  assert (0 <= digits_val 256 l / 256 ^ (i * LB) < 256 ^ n).
  { apply div_pos_bound; [apply p256_pos; lia|]. rewrite <- Z.pow_add_r, <- Hc by lia. lia. }
  rewrite (Z.mod_small _ B); [apply Z.mod_small; lia|].
  rewrite B_256'. assert (256 ^ n <= 256 ^ LB) by (apply Z.pow_le_mono_r; lia). lia.
Qed.

Definition store_post (b : mp) (i v : Z) (b' : mp) : Prop :=
  mp_ok b' /\ same_shape b b' /\ mpval b' = mpval b + (v - limb b i) * B ^ i.

Lemma to_be_seg : forall v n, 0 <= n <= LB ->
  rev (firstn (Z.to_nat n) (skipn (Z.to_nat (LB - n)) (to_be_bytes v))) = firstn (Z.to_nat n) (to_le_bytes v).
Proof.
  intros. pose proof (to_le_len v) as L.
  replace (Z.to_nat n) with (Z.to_nat (LB - (LB - n))) at 1 by (f_equal; lia).
  rewrite rev_seg.
  - unfold to_be_bytes. rewrite rev_involutive, zlen_rev, L.
    replace (LB - LB) with 0 by lia. replace (LB - (LB - n)) with n by lia. reflexivity.
  - lia.
  - unfold to_be_bytes. rewrite zlen_rev. lia.
Qed.

Lemma be_store_post : forall l i n v (s := firstn (Z.to_nat n) (skipn (Z.to_nat (LB - n)) (to_be_bytes v))),
  mp_ok (BE l) -> 0 <= i -> 0 <= n <= LB -> i * LB + n <= zlen l ->
  (n = LB \/ zlen l = i * LB + n) -> 0 <= v < 256 ^ n ->
  store_post (BE l) i v (BE (splice l (zlen l - i * LB - n) s)).
Proof.
  intros l i n v s [Hl Hb] Hi Hn HL Hc Hv. cbn [mp_len] in *. pose proof LB_pos.
  assert (0 <= i * LB) by (apply mul_nn; lia).
  assert (Ls : zlen s = n).
  { unfold s. apply seg_length_z; try lia. unfold to_be_bytes. rewrite zlen_rev, to_le_len. lia. }
  assert (LL : zlen (splice l (zlen l - i * LB - n) s) = zlen l) by (apply splice_zlen; lia).
  split; [split|split].
  - apply splice_ok; auto. unfold s. apply digits_ok_firstn, digits_ok_skipn. unfold to_be_bytes.
    apply digits_ok_rev, to_le_ok.
  - cbn [mp_len]. rewrite LL. auto.
  - split; auto.
  - cbn [mpval]. unfold be_val. rewrite rev_splice by lia. rewrite Ls.
    replace (zlen l - (zlen l - i * LB - n) - n) with (i * LB) by lia.
    unfold s. rewrite to_be_seg by lia. rewrite store_bytes_val; auto; rewrite ?zlen_rev; auto.
    apply digits_ok_rev; auto.
Qed.
Lemma le_store_post : forall l i n v, mp_ok (LE l) -> 0 <= i -> 0 <= n <= LB -> i * LB + n <= zlen l ->
  (n = LB \/ zlen l = i * LB + n) -> 0 <= v < 256 ^ n ->
  store_post (LE l) i v (LE (splice l (i * LB) (firstn (Z.to_nat n) (to_le_bytes v)))).
Proof.
  intros l i n v [Hl Hb] Hi Hn HL Hc Hv. cbn [mp_len] in *. pose proof LB_pos.
  assert (0 <= i * LB) by (apply mul_nn; lia).
  assert (Ls : zlen (firstn (Z.to_nat n) (to_le_bytes v)) = n).
  { apply firstn_length_z. rewrite to_le_len. lia. }
  assert (LL : zlen (splice l (i * LB) (firstn (Z.to_nat n) (to_le_bytes v))) = zlen l) by (apply splice_zlen; lia).
  split; [split|split].
  - apply splice_ok; auto. apply digits_ok_firstn, to_le_ok.
  - cbn [mp_len]. rewrite LL. auto.
  - split; auto.
  - cbn [mpval]. unfold le_val. apply store_bytes_val; auto.
Qed.
Lemma ne_store_post : forall l i v, mp_ok (NE l) -> 0 <= i < zlen l -> isl v ->
  store_post (NE l) i v (NE (splice l i [v])).
Proof.
  intros l i v [Hl Hb] Hi Hv. cbn [mp_len] in *. pose proof B_pos.
  assert (zlen [v] = 1) by reflexivity.
  assert (LL : zlen (splice l i [v]) = zlen l) by (apply splice_zlen; lia).
  split; [split|split].
  - apply splice_ok; auto. constructor; auto.
  - cbn [mp_len]. rewrite LL. auto.
  - split; auto. cbn [mp_len]. rewrite LL. auto.
  - cbn [mpval]. unfold limb. cbn [mpval]. change (2 ^ (8 * LB)) with B in *. rewrite splice_val; auto; try lia. rewrite H0, Z.pow_1_r.
    cbn [digits_val]. f_equal. f_equal. lia.
Qed.

Lemma slice_all_le : forall v, firstn (Z.to_nat LB) (to_le_bytes v) = to_le_bytes v.
Proof. intros. apply firstn_all2. unfold to_le_bytes. rewrite le_bytes_length. lia. Qed.
Lemma slice_all_be : forall v, firstn (Z.to_nat LB) (skipn (Z.to_nat (LB - LB)) (to_be_bytes v)) = to_be_bytes v.
Proof. intros. rewrite Z.sub_diag. cbn [skipn Z.to_nat]. apply firstn_all2. unfold to_be_bytes, to_le_bytes.
  rewrite rev_length, le_bytes_length. lia. Qed.

Lemma wp_be_store_full : forall l i v (Q : list Z -> Prop), mp_ok (BE l) -> 0 <= i -> (i + 1) * LB <= zlen l -> isl v ->
  (forall l', store_post (BE l) i v (BE l') -> Q l') -> wp (_be_mp_store_l_full l (zlen l - i * LB) v) Q.
Proof.
  intros l i v Q Hl Hi HL Hv HQ. pose proof LB_pos. assert (0 <= i * LB) by (apply mul_nn; lia).
  unfold _be_mp_store_l_full.
  apply wp_bind, wp_usub; [lia|]. apply wp_bind, wp_slice; [lia|lia|]. apply wp_ret. apply HQ.
  rewrite <- slice_all_be. apply be_store_post; auto; try lia. rewrite <- B_256'. exact Hv.
Qed.
Lemma wp_le_store_full : forall l i v (Q : list Z -> Prop), mp_ok (LE l) -> 0 <= i -> (i + 1) * LB <= zlen l -> isl v ->
  (forall l', store_post (LE l) i v (LE l') -> Q l') -> wp (_le_mp_store_l_full l (i * LB) v) Q.
Proof.
  intros l i v Q Hl Hi HL Hv HQ. pose proof LB_pos. assert (0 <= i * LB) by (apply mul_nn; lia).
  unfold _le_mp_store_l_full.
  apply wp_bind, wp_slice; [lia|lia|]. apply wp_ret. apply HQ.
  rewrite <- slice_all_le. apply le_store_post; auto; try lia. rewrite <- B_256'. exact Hv.
Qed.

Lemma wp_store_full : forall b i v (Q : mp -> Prop), mp_ok b -> 0 <= i -> (i + 1) * LB <= mp_len b -> isl v ->
  (forall b', store_post b i v b' -> Q b') -> wp (store_l_full b i v) Q.
Proof.
  intros b i v Q Hb Hi HL Hv HQ. pose proof LB_pos. unfold store_l_full. apply wp_bind, wp_tick.
  destruct b as [l|l|l]; cbn [mp_len] in *.
  - unfold be_mp_store_l_full. apply wp_bind, wp_bind, wp_dassert; [apply Z.ltb_lt; lia|].
    apply wp_bind, wp_usub; [lia|]. apply wp_be_store_full; auto. intros. apply wp_ret. auto.
  - unfold le_mp_store_l_full. apply wp_bind, wp_bind, wp_dassert; [apply Z.ltb_lt; lia|].
    apply wp_le_store_full; auto. intros. apply wp_ret. auto.
  - assert (i < zlen l) by nia. apply wp_bind, wp_zupd; [lia|]. apply wp_ret, HQ, ne_store_post; auto.
Qed.
Lemma wp_store : forall b i v (Q : mp -> Prop), mp_ok b -> 0 <= i < nlimbs b -> 0 <= v < lim b i ->
  (forall b', store_post b i v b' -> Q b') -> wp (store_l b i v) Q.
Proof.
  intros b i v Q Hb Hi Hv HQ. pose proof LB_pos. pose proof (lim_pos b i Hi).
  assert (0 <= i * LB) by (apply mul_nn; lia).
  pose proof (proj1 (nlimbs_lt b i ltac:(lia)) ltac:(lia)) as HL.
  unfold store_l. apply wp_bind, wp_tick. destruct b as [l|l|l]; cbn [mp_len] in *.
  - unfold be_mp_store_l. apply wp_bind, wp_bind, wp_dassert; [apply Z.leb_le; lia|].
    apply wp_bind, wp_usub; [lia|]. apply wp_mif; intros E.
    + apply Z.leb_le in E. apply wp_be_store_full; auto; try lia. { unfold isl; lia. } intros. apply wp_ret. auto.
    + apply Z.leb_gt in E. unfold lim in Hv. cbn [mp_len] in Hv. rewrite Z.min_r in Hv by lia.
      apply wp_bind, wp_dassert_m.
      { apply wp_bind, wp_lshr; [unfold W; lia|]. apply wp_ret. apply Z.eqb_eq.
        rewrite <- pow256 by lia. apply Z.div_small. lia. }
      unfold _be_mp_store_l_high_partial. apply wp_bind, wp_slice; [lia|lia|].
      apply wp_bind, wp_usub; [lia|]. apply wp_bind, wp_slice; [lia| unfold to_be_bytes; rewrite zlen_rev, to_le_len; lia |].
      apply wp_ret, wp_ret, HQ.
      replace (splice l 0) with (splice l (zlen l - i * LB - (zlen l - i * LB))) by (f_equal; lia).
      replace (LB - (LB - (zlen l - i * LB))) with (zlen l - i * LB) by lia.
      apply be_store_post; auto; try lia.
  - unfold le_mp_store_l. apply wp_bind, wp_bind, wp_dassert; [apply Z.ltb_lt; lia|].
    apply wp_mif; intros E.
    + apply Z.leb_le in E. apply wp_le_store_full; auto; try lia. { unfold isl; lia. } intros. apply wp_ret. auto.
    + apply Z.leb_gt in E. unfold lim in Hv. cbn [mp_len] in Hv. rewrite Z.min_r in Hv by lia.
      apply wp_bind, wp_dassert_m.
      { apply wp_bind, wp_usub; [lia|]. apply wp_bind, wp_lshr; [unfold W; lia|]. apply wp_ret. apply Z.eqb_eq.
        rewrite <- pow256 by lia. apply Z.div_small. lia. }
      unfold _le_mp_store_l_high_partial. apply wp_bind, wp_slice; [lia|lia|].
      apply wp_bind, wp_usub; [lia|]. apply wp_bind, wp_slice; [lia|rewrite to_le_len; lia|].
      apply wp_ret, wp_ret, HQ. rewrite Z.sub_0_r. cbn [skipn Z.to_nat].
      apply le_store_post; auto; try lia.
  - rewrite nlimbs_NE in Hi. apply wp_bind, wp_zupd; [lia|]. apply wp_ret, HQ, ne_store_post; auto. unfold isl; lia.
Qed.

End Facts.
