(** Limb arithmetic on integer values, clearing of bytes, limb and byte scans. *)
From Coq Require Import ZArith List Bool Lia.
Require Import Verif.Spec Verif.Monad Verif.Base Verif.Wp Verif.ModelLimb Verif.LimbFacts Verif.LimbFacts2
  Verif.ModelBuf Verif.SpecBuf Verif.BufFacts.
Import ListNotations.
Open Scope Z_scope.

Lemma mod_div_split : forall v a b, 0 < a -> 0 < b -> (v mod (a * b)) / a = (v / a) mod b.
Proof.
  intros. rewrite mod_mul_split by lia. rewrite Z.mul_comm, Z.div_add by lia.
  rewrite (Z.div_small (v mod a)) by (apply Z.mod_pos_bound; lia). lia.
Qed.
Lemma sub_mod_eq : forall v p, 0 < p -> v - v mod p = p * (v / p).
Proof. intros. pose proof (Z.div_mod v p ltac:(lia)). lia. Qed.
(** Digits of a sum of a low part and a multiple. *)
Lemma lohi_div : forall L p H, 0 <= L < p -> (L + p * H) / p = H.
Proof. intros. eapply div_eq_of with (r := L); lia. Qed.
Lemma lohi_mod : forall L p H, 0 <= L < p -> (L + p * H) mod p = L.
Proof. intros. eapply mod_eq_of with (q := H); lia. Qed.

Section Facts.
Context {c : cfg}.

(** Limb [i] of an integer. *)
Definition vlimb (v i : Z) : Z := (v / B ^ i) mod B.
Lemma limb_vlimb : forall b i, limb b i = vlimb (mpval b) i.
Proof. reflexivity. Qed.
Lemma vlimb_isl : forall v i, isl (vlimb v i).
Proof. intros. apply isl_mod. Qed.

Lemma vmod_S : forall v i, 0 <= i -> v mod B ^ (i + 1) = v mod B ^ i + vlimb v i * B ^ i.
Proof.
  intros. rewrite Bpow_S by lia. rewrite (Z.mul_comm B (B ^ i)).
  rewrite mod_mul_split; [unfold vlimb; lia|apply Bpow_pos; lia|apply B_pos].
Qed.
Lemma vdiv_S : forall v i, 0 <= i -> v / B ^ i = vlimb v i + B * (v / B ^ (i + 1)).
Proof.
  intros. rewrite Bpow_S by lia. rewrite (Z.mul_comm B (B ^ i)), div_mul_div; [|apply Bpow_pos; lia|apply B_pos].
  unfold vlimb. pose proof (Z.div_mod (v / B ^ i) B). pose proof B_pos. lia.
Qed.
Lemma vmod_0 : forall v, v mod B ^ 0 = 0.
Proof. intros. rewrite Z.pow_0_r. apply Z.mod_1_r. Qed.
Lemma vdiv_0 : forall v, v / B ^ 0 = v.
Proof. intros. rewrite Z.pow_0_r. apply Z.div_1_r. Qed.
Lemma vmod_full : forall b i, mp_ok b -> nlimbs b <= i -> mpval b mod B ^ i = mpval b.
Proof.
  intros. pose proof (mpval_bound_B b H). pose proof (nlimbs_nonneg b). apply Z.mod_small. split; [lia|].
  eapply Z.lt_le_trans; [apply H1|]. apply Z.pow_le_mono_r; [apply B_pos|lia].
Qed.
Lemma vdiv_full : forall b i, mp_ok b -> nlimbs b <= i -> mpval b / B ^ i = 0.
Proof.
  intros. pose proof (mpval_bound_B b H). pose proof (nlimbs_nonneg b). apply Z.div_small. split; [lia|].
  eapply Z.lt_le_trans; [apply H1|]. apply Z.pow_le_mono_r; [apply B_pos|lia].
Qed.
Lemma limb_out : forall b i, mp_ok b -> nlimbs b <= i -> limb b i = 0.
Proof. intros. unfold limb. rewrite vdiv_full by auto. apply Z.mod_0_l. pose proof B_pos. lia. Qed.
Lemma vmod_bound : forall v i, 0 <= i -> 0 <= v mod B ^ i < B ^ i.
Proof. intros. apply Z.mod_pos_bound, Bpow_pos; auto. Qed.
Lemma vdivmod : forall v i, 0 <= i -> v = v mod B ^ i + B ^ i * (v / B ^ i).
Proof. intros. pose proof (Bpow_pos i H). pose proof (Z.div_mod v (B ^ i)). lia. Qed.

(** Ascending loops: everything below limb [i] has been replaced by [L]. *)
Lemma up_limb : forall b V0 L i, 0 <= i -> 0 <= L < B ^ i -> mpval b = L + B ^ i * (V0 / B ^ i) ->
  limb b i = vlimb V0 i.
Proof. intros. unfold limb. rewrite H1, lohi_div by auto. reflexivity. Qed.
Lemma up_limb' : forall b V0 L i j, 0 <= i <= j -> 0 <= L < B ^ i -> mpval b = L + B ^ i * (V0 / B ^ i) ->
  limb b j = vlimb V0 j.
Proof.
  intros. unfold limb, vlimb. f_equal. replace j with (i + (j - i)) by lia. rewrite Z.pow_add_r by lia.
  rewrite !div_mul_div by (apply Bpow_pos; lia). rewrite H1, lohi_div by auto. reflexivity.
Qed.
Lemma up_step : forall b b' V0 L i x, 0 <= i -> 0 <= L < B ^ i -> mpval b = L + B ^ i * (V0 / B ^ i) -> isl x ->
  store_post b i x b' ->
  mpval b' = (L + x * B ^ i) + B ^ (i + 1) * (V0 / B ^ (i + 1)) /\ 0 <= L + x * B ^ i < B ^ (i + 1).
Proof.
  intros b b' V0 L i x Hi HL HV Hx (_ & _ & E). rewrite (up_limb b V0 L i) in E by auto.
  pose proof (Bpow_pos i Hi). unfold isl in Hx. split.
  - rewrite E, HV. rewrite (vdiv_S V0 i Hi), Bpow_S by auto. ring.
  - rewrite Bpow_S by auto. nia.
Qed.
(** Descending loops: everything from limb [i] up has been replaced by [H]. *)
Lemma dn_limb : forall b V0 H i, 0 <= i -> mpval b = V0 mod B ^ (i + 1) + B ^ (i + 1) * H ->
  limb b i = vlimb V0 i.
Proof.
  intros. unfold limb. rewrite H1, vmod_S, Bpow_S by auto.
  replace (V0 mod B ^ i + vlimb V0 i * B ^ i + B * B ^ i * H) with
    (V0 mod B ^ i + B ^ i * (vlimb V0 i + H * B)) by ring.
  rewrite lohi_div by (apply vmod_bound; auto). pose proof B_pos. rewrite Z.mod_add by lia.
  apply Z.mod_small. apply vlimb_isl.
Qed.
Lemma dn_limb' : forall b V0 H i j, 0 <= j < i -> mpval b = V0 mod B ^ i + B ^ i * H ->
  limb b j = vlimb V0 j.
Proof.
  intros. assert (X : mpval b mod B ^ i = V0 mod B ^ i).
  { rewrite H1. apply lohi_mod, vmod_bound. lia. }
  assert (Y : mpval b mod B ^ (j + 1) = V0 mod B ^ (j + 1)).
  { rewrite <- (mod_mod_pow (mpval b) B (j + 1) i), <- (mod_mod_pow V0 B (j + 1) i), X by (try apply B_pos; lia). auto. }
  unfold limb, vlimb. pose proof (Bpow_pos j ltac:(lia)). pose proof B_pos.
  rewrite <- !mod_div_split by lia. rewrite Z.mul_comm, <- Bpow_S, Y by lia. reflexivity.
Qed.
Lemma dn_step : forall b b' V0 H i x, 0 <= i -> mpval b = V0 mod B ^ (i + 1) + B ^ (i + 1) * H ->
  store_post b i x b' -> mpval b' = V0 mod B ^ i + B ^ i * (x + B * H).
Proof.
  intros b b' V0 H i x Hi HV (_ & _ & E). rewrite (dn_limb b V0 H i) in E by auto.
  rewrite E, HV, vmod_S, Bpow_S by auto. ring.
Qed.
Lemma store_limb : forall b b' i x, 0 <= i -> isl x -> store_post b i x b' -> limb b' i = x.
Proof.
  intros b b' i x Hi Hx (_ & _ & E). pose proof B_pos. pose proof (Bpow_pos i Hi).
  unfold limb at 1. rewrite E. rewrite Z.div_add by lia.
  pose proof (vdiv_S (mpval b) i Hi). rewrite <- limb_vlimb in H1. rewrite H1.
  replace (limb b i + B * (mpval b / B ^ (i + 1)) + (x - limb b i)) with (x + mpval b / B ^ (i + 1) * B) by ring.
  rewrite Z.mod_add by lia. apply Z.mod_small. auto.
Qed.
Lemma store_div : forall b b' i x, 0 <= i -> isl x -> store_post b i x b' -> mpval b' / B ^ (i + 1) = mpval b / B ^ (i + 1).
Proof.
  intros b b' i x Hi Hx Hp. assert (HL : 0 <= mpval b mod B ^ i < B ^ i) by (apply vmod_bound; auto).
  destruct (up_step b b' (mpval b) (mpval b mod B ^ i) i x) as [E R]; auto.
  { apply vdivmod; auto. } rewrite E. apply lohi_div. auto.
Qed.
Lemma store_mod : forall b b' i x, 0 <= i -> store_post b i x b' -> mpval b' mod B ^ i = mpval b mod B ^ i.
Proof.
  intros b b' i x Hi (_ & _ & E). pose proof (Bpow_pos i Hi). rewrite E. apply Z.mod_add. lia.
Qed.
Lemma store_mod' : forall b b' i j x, 0 <= j <= i -> store_post b i x b' -> mpval b' mod B ^ j = mpval b mod B ^ j.
Proof.
  intros. rewrite <- (mod_mod_pow (mpval b') B j i), <- (mod_mod_pow (mpval b) B j i) by (try apply B_pos; lia).
  f_equal. eapply store_mod; eauto. lia.
Qed.
Lemma limb_of_mod : forall v j i, 0 <= j < i -> vlimb (v mod B ^ i) j = vlimb v j.
Proof.
  intros. unfold vlimb. replace i with (j + (1 + (i - j - 1))) at 1 by lia.
  pose proof B_pos. pose proof (Bpow_pos j). pose proof (Bpow_pos (i - j - 1)).
  rewrite Z.pow_add_r by lia. rewrite mod_div_split by (try apply Bpow_pos; lia).
  rewrite Z.pow_add_r, Z.pow_1_r by lia. apply mod_mul_le; lia.
Qed.
Lemma limb_of_div : forall v j i, 0 <= i <= j -> vlimb (v / B ^ i) (j - i) = vlimb v j.
Proof.
  intros. unfold vlimb. rewrite <- div_mul_div by (apply Bpow_pos; lia).
  rewrite <- Z.pow_add_r by lia. do 3 f_equal. lia.
Qed.
Lemma store_limb_other : forall b b' i j x, 0 <= i -> 0 <= j -> i <> j -> isl x -> store_post b i x b' ->
  limb b' j = limb b j.
Proof.
  intros. rewrite !limb_vlimb. destruct (Z_lt_le_dec j i).
  - rewrite <- (limb_of_mod _ j i), <- (limb_of_mod (mpval b) j i) by lia. f_equal. eapply store_mod; eauto.
  - rewrite <- (limb_of_div _ j (i + 1)), <- (limb_of_div (mpval b) j (i + 1)) by lia. f_equal. eapply store_div; eauto.
Qed.

Lemma store_ok : forall b b' i x, store_post b i x b' -> mp_ok b'.
Proof. intros b b' i x H. apply H. Qed.
Lemma store_shape : forall b b' i x, store_post b i x b' -> same_shape b b'.
Proof. intros b b' i x H. apply H. Qed.

(** Values of limbs below the radix limit. *)
Lemma lim_shape : forall b b' i, same_shape b b' -> lim b' i = lim b i.
Proof. intros. unfold lim. rewrite (shape_len b b'); auto. Qed.
Lemma lim_inner : forall b i, 0 <= i < nlimbs b - 1 -> lim b i = B.
Proof. intros. apply lim_full. apply nlimbs_full. auto. Qed.
Lemma lim_total : forall b, 0 < nlimbs b -> B ^ (nlimbs b - 1) * lim b (nlimbs b - 1) = 256 ^ mp_len b.
Proof.
  intros. pose proof (nlimbs_spec b). pose proof LB_pos. assert (0 <= (nlimbs b - 1) * LB) by (apply mul_nn; lia).
  rewrite Bpow256 by lia. unfold lim. rewrite Z.min_r by lia. rewrite <- Z.pow_add_r by lia. f_equal. lia.
Qed.

Lemma mod_B_sub : forall y r, 0 <= r <= LB -> (y mod B) mod 2 ^ (8 * r) = y mod 2 ^ (8 * r).
Proof. intros. rewrite B_256', <- pow256 by lia. apply mod_mod_pow; lia. Qed.

(** ** Lengths chosen by the caller *)
Lemma wp_uadd : forall a b (Q : Z -> Prop), 0 <= a + b < 2 ^ UW -> Q (a + b) -> wp (uadd a b) Q.
Proof. intros. unfold uadd. apply wp_ovf; auto. Qed.
Lemma wp_umul : forall a b (Q : Z -> Prop), 0 <= a * b < 2 ^ UW -> Q (a * b) -> wp (umul a b) Q.
Proof. intros. unfold umul. apply wp_ovf; auto. Qed.
Lemma wp_unlimbs : forall n (Q : Z -> Prop), 0 <= n /\ n + LB < 2 ^ UW -> Q (ct_mp_nlimbs n) -> wp (unlimbs n) Q.
Proof.
  intros n Q H HQ. unfold unlimbs. pose proof LB_pos. apply wp_bind, wp_uadd; [lia|]. apply wp_bind, wp_usub; [lia|]. apply wp_ret. auto.
Qed.
Lemma UW_big : 2 ^ 32 <= 2 ^ UW.
Proof. unfold UW. destruct (usize64 c); apply Z.pow_le_mono_r; lia. Qed.
Lemma uadd_pan : forall a b, debug c = true -> 2 ^ UW <= a + b -> panics (uadd a b).
Proof. intros a b D H. unfold uadd, ovf. destruct (Z.ltb_spec (a + b) (2 ^ UW)); [lia|]. rewrite andb_false_r, D. reflexivity. Qed.
Lemma wp_uadd_wrap : forall a b (Q : Z -> Prop), debug c = false -> 2 ^ UW <= a + b < 2 * 2 ^ UW -> Q (a + b - 2 ^ UW) -> wp (uadd a b) Q.
Proof.
  intros a b Q D H HQ. unfold uadd, ovf. destruct (Z.ltb_spec (a + b) (2 ^ UW)); [lia|]. rewrite andb_false_r, D. apply wp_ret.
  replace ((a + b) mod 2 ^ UW) with (a + b - 2 ^ UW); auto. apply Z.mod_unique with 1; lia.
Qed.

(** ** Clearing bytes *)
Definition clear_above_post (b : mp) (n : Z) (b' : mp) : Prop :=
  mp_ok b' /\ same_shape b b' /\ mpval b' = mpval b mod 256 ^ n.
Definition clear_below_post (b : mp) (n : Z) (b' : mp) : Prop :=
  mp_ok b' /\ same_shape b b' /\ mpval b' = mpval b - mpval b mod 256 ^ n.

Lemma zero_above : forall b l n, 0 < b -> digits_ok b l -> 0 <= n <= zlen l ->
  digits_val b (splice l n (zrepeat 0 (zlen l - n))) = digits_val b l mod b ^ n.
Proof.
  intros b l n Hb Hl Hn. assert (L : zlen (zrepeat 0 (zlen l - n)) = zlen l - n) by (apply zlen_zrepeat; lia).
  rewrite splice_val by (rewrite ?L; auto; lia). rewrite L, zrepeat_val.
  pose proof (digits_val_bound b l Hb Hl). pose proof (pow_gt0 b n Hb ltac:(lia)).
  rewrite (Z.mod_small (_ / _)).
  - pose proof (Z.div_mod (digits_val b l) (b ^ n) ltac:(lia)). lia.
  - apply div_pos_bound; auto. rewrite <- Z.pow_add_r by lia. replace (n + _) with (zlen l) by lia. auto.
Qed.
Lemma zero_below : forall b l n, 0 < b -> digits_ok b l -> 0 <= n <= zlen l ->
  digits_val b (splice l 0 (zrepeat 0 n)) = digits_val b l - digits_val b l mod b ^ n.
Proof.
  intros b l n Hb Hl Hn. assert (L : zlen (@zrepeat Z 0 n) = n) by (apply zlen_zrepeat; lia).
  rewrite splice_val by (rewrite ?L; auto; lia). rewrite L, zrepeat_val.
  rewrite Z.pow_0_r, Z.div_1_r. lia.
Qed.

Lemma clear_all_mod : forall b n, mp_ok b -> mp_len b <= n -> mpval b mod 256 ^ n = mpval b.
Proof.
  intros. pose proof (mpval_bound b H). pose proof (mp_len_nonneg b). apply Z.mod_small. split; [lia|].
  eapply Z.lt_le_trans; [apply H1|]. apply Z.pow_le_mono_r; lia.
Qed.

Lemma wp_ne_clear_above : forall l n (Q : list Z -> Prop), mp_ok (NE l) -> 0 <= n ->
  (forall l', clear_above_post (NE l) n (NE l') -> Q l') -> wp (ne_mp_clear_bytes_above l n) Q.
Proof.
  intros l n Q Hok Hn HQ. pose proof LB_pos as HLB. pose proof B_pos as HB.
  pose proof (Z.div_mod n LB) as DM. pose proof (Z.mod_pos_bound n LB) as MB.
  assert (D0 : 0 <= n / LB) by (apply Z.div_pos; lia).
  unfold ne_mp_clear_bytes_above. apply wp_mif; intros E.
  { apply Z.leb_le in E. apply wp_ret, HQ. split; [auto|split; [apply shape_refl|]].
    symmetry. apply clear_all_mod; auto. cbn [mp_len]. nia. }
  apply Z.leb_gt in E. destruct Hok as [Hl Hb]. change (2 ^ (8 * LB)) with B in Hl.
  set (k := n / LB) in *. set (r := n mod LB) in *.
  apply wp_bind, wp_mif; intros E2.
  - apply negb_true_iff, Z.eqb_neq in E2.
    apply wp_bind, wp_lsb_mask; [unfold W; lia|]. apply wp_bind, wp_znth; [lia|].
    rewrite (nth_val B) by (auto; lia). set (x := (digits_val B l / B ^ k) mod B).
    rewrite land_mask by lia.
    apply wp_bind, wp_zupd; [lia|]. apply wp_ret.
    set (l1 := splice l k [x mod 2 ^ (8 * r)]).
    assert (L1 : zlen l1 = zlen l) by (apply splice_zlen; unfold zlen in *; cbn; lia).
    apply wp_bind, wp_slice; [lia|lia|]. apply wp_ret. rewrite seg_length_z by lia.
    assert (isl x) by apply isl_mod. pose proof (pow2_gt0 (8 * r) ltac:(lia)) as P.
    assert (X : isl (x mod 2 ^ (8 * r))).
    { pose proof (Z.mod_pos_bound x (2 ^ (8 * r)) P). pose proof (Z.mod_le x (2 ^ (8 * r)) (proj1 H) P). unfold isl in *. lia. }
    assert (O1 : digits_ok B l1). { apply splice_ok; auto. constructor; auto. }
    assert (L2 : zlen (splice l1 (k + 1) (zrepeat 0 (zlen l1 - (k + 1)))) = zlen l).
    { rewrite splice_zlen; auto; try lia. rewrite zlen_zrepeat; lia. }
    apply HQ. split; [split|split].
    + apply splice_ok; auto. apply zrepeat_ok; auto.
    + cbn [mp_len] in *. rewrite L2. auto.
    + split; auto. cbn [mp_len]. rewrite L2. auto.
    + cbn [mpval]. change (2 ^ (8 * LB)) with B. rewrite zero_above by (auto; lia).
      pose proof (ne_store_post l k (x mod 2 ^ (8 * r)) (conj Hl Hb) ltac:(lia) X) as SP. fold l1 in SP.
      change (digits_val B l1) with (mpval (NE l1)). change (digits_val B l) with (mpval (NE l)).
      rewrite vmod_S by lia. rewrite (store_mod (NE l) (NE l1) k _ D0 SP).
      rewrite <- limb_vlimb, (store_limb (NE l) (NE l1) k _ D0 X SP).
      replace (256 ^ n) with (B ^ k * 2 ^ (8 * r)).
      * rewrite mod_mul_split; [|apply Bpow_pos; lia|auto]. f_equal. rewrite Z.mul_comm. f_equal.
        unfold x. change (digits_val B l) with (mpval (NE l)).
        rewrite mod_B_sub by lia. reflexivity.
      * rewrite Bpow256, <- pow256, <- Z.pow_add_r by (try (apply mul_nn; lia); lia). f_equal. unfold k, r. lia.
  - apply negb_false_iff, Z.eqb_eq in E2. apply wp_ret.
    apply wp_bind, wp_slice; [lia|lia|]. apply wp_ret. rewrite seg_length_z by lia.
    assert (L2 : zlen (splice l k (zrepeat 0 (zlen l - k))) = zlen l).
    { rewrite splice_zlen; auto; try lia. rewrite zlen_zrepeat; lia. }
    apply HQ. split; [split|split].
    + apply splice_ok; auto. apply zrepeat_ok; auto.
    + cbn [mp_len] in *. rewrite L2. auto.
    + split; auto. cbn [mp_len]. rewrite L2. auto.
    + cbn [mpval]. change (2 ^ (8 * LB)) with B. rewrite zero_above by (auto; lia).
      rewrite Bpow256 by lia. do 2 f_equal. unfold k. lia.
Qed.

Lemma wp_clear_above : forall b n (Q : mp -> Prop), mp_ok b -> 0 <= n ->
  (forall b', clear_above_post b n b' -> Q b') -> wp (clear_bytes_above b n) Q.
Proof.
  intros b n Q Hok Hn HQ. unfold clear_bytes_above. apply wp_bind, wp_tick.
  destruct b as [l|l|l].
  - apply wp_bind. unfold be_mp_clear_bytes_above. apply wp_mif; intros E.
    { apply Z.leb_le in E. apply wp_ret, wp_ret, HQ. split; [auto|split; [apply shape_refl|]].
      symmetry. apply clear_all_mod; auto. }
    apply Z.leb_gt in E. apply wp_bind, wp_usub; [lia|]. apply wp_bind, wp_slice; [lia|lia|]. apply wp_ret, wp_ret.
    destruct Hok as [Hl Hb].
    assert (L2 : zlen (splice l 0 (zrepeat 0 (zlen l - n))) = zlen l).
    { rewrite splice_zlen; auto; try lia. rewrite zlen_zrepeat; lia. }
    apply HQ. split; [split|split].
    + apply splice_ok; auto. apply zrepeat_ok; lia.
    + cbn [mp_len] in *. rewrite L2. auto.
    + split; auto.
    + cbn [mpval]. unfold be_val. rewrite rev_splice by (rewrite ?zlen_zrepeat; lia).
      rewrite rev_zrepeat, zlen_zrepeat by lia.
      replace (zlen l - 0 - (zlen l - n)) with n by lia. rewrite <- (zlen_rev _ l).
      rewrite zero_above; auto; try lia; [apply digits_ok_rev; auto|rewrite zlen_rev; lia].
  - apply wp_bind. unfold le_mp_clear_bytes_above. apply wp_mif; intros E.
    { apply Z.leb_le in E. apply wp_ret, wp_ret, HQ. split; [auto|split; [apply shape_refl|]].
      symmetry. apply clear_all_mod; auto. }
    apply Z.leb_gt in E. apply wp_bind, wp_slice; [lia|lia|]. apply wp_ret, wp_ret. rewrite seg_length_z by lia.
    destruct Hok as [Hl Hb].
    assert (L2 : zlen (splice l n (zrepeat 0 (zlen l - n))) = zlen l).
    { rewrite splice_zlen; auto; try lia. rewrite zlen_zrepeat; lia. }
    apply HQ. split; [split|split].
    + apply splice_ok; auto. apply zrepeat_ok; lia.
    + cbn [mp_len] in *. rewrite L2. auto.
    + split; auto.
    + cbn [mpval]. unfold le_val. rewrite zero_above; auto; lia.
  - apply wp_bind. apply wp_ne_clear_above; auto. intros. apply wp_ret. auto.
Qed.

Lemma unlimbs_ret : forall n, 0 <= n -> n + LB < 2 ^ UW -> unlimbs n = ret (ct_mp_nlimbs n).
Proof.
  intros n Hn HU. pose proof LB_pos. unfold unlimbs, uadd, ovf. destruct (Z.leb_spec 0 (n + LB)); [|lia]. destruct (Z.ltb_spec (n + LB) (2 ^ UW)); [|lia].
  cbn. unfold usub. destruct (Z.leb_spec 1 (n + LB)); [|lia]. reflexivity.
Qed.
Lemma wp_ne_clear_below_gen : forall l n (Q : list Z -> Prop), mp_ok (NE l) -> 0 <= n -> unlimbs n = ret (ct_mp_nlimbs n) ->
  (n mod LB = 0 \/ n <= mp_len (NE l)) ->
  (forall l', clear_below_post (NE l) n (NE l') -> Q l') -> wp (ne_mp_clear_bytes_below l n) Q.
Proof.
  intros l n Q Hok Hn HUN Hg HQ. pose proof LB_pos as HLB. pose proof B_pos as HB.
  pose proof (Z.div_mod n LB) as DM. pose proof (Z.mod_pos_bound n LB) as MB.
  assert (D0 : 0 <= n / LB) by (apply Z.div_pos; lia).
  pose proof (zlen_nonneg _ l) as HZ.
  pose proof (mpval_bound _ Hok) as VB. destruct Hok as [Hl Hb]. change (2 ^ (8 * LB)) with B in Hl.
  cbn [mp_len] in *.
  unfold ne_mp_clear_bytes_below. rewrite HUN. apply wp_bind, wp_ret.
  set (k := n / LB) in *. set (r := n mod LB) in *.
  apply wp_bind, wp_mif; intros E2.
  - apply negb_true_iff, Z.eqb_neq in E2. destruct Hg as [Hg|Hg]; [lia|].
    assert (NL : ct_mp_nlimbs n = k + 1) by (apply ct_mp_nlimbs_unique; lia).
    assert (KL : k < zlen l) by nia. rewrite NL, Z.min_l by lia.
    apply wp_bind, wp_usub; [lia|]. replace (k + 1 - 1) with k by lia.
    apply wp_bind, wp_znth; [lia|].
    rewrite (nth_val B) by (auto; lia). set (x := (digits_val B l / B ^ k) mod B).
    apply wp_bind, wp_lshr; [unfold W; lia|]. apply wp_bind, wp_lshl; [unfold W; lia|].
    assert (Hx : isl x) by apply isl_mod. pose proof (pow2_gt0 (8 * r) ltac:(lia)) as P.
    assert (EX : (x / 2 ^ (8 * r) * 2 ^ (8 * r)) mod B = x - x mod 2 ^ (8 * r)).
    { rewrite Z.mod_small; pose proof (Z.div_mod x (2 ^ (8 * r)) ltac:(lia));
      pose proof (Z.mod_pos_bound x (2 ^ (8 * r)) P); [lia|].
      pose proof (Z.div_pos x (2 ^ (8 * r)) (proj1 Hx) P).
      unfold isl in Hx. split; [apply mul_nn; lia|lia]. }
    rewrite EX.
    assert (X : isl (x - x mod 2 ^ (8 * r))).
    { pose proof (Z.mod_pos_bound x (2 ^ (8 * r)) P). pose proof (Z.mod_le x (2 ^ (8 * r)) (proj1 Hx) P). unfold isl in *. lia. }
    apply wp_bind, wp_zupd; [lia|]. apply wp_ret.
    set (l1 := splice l k [x - x mod 2 ^ (8 * r)]).
    assert (L1 : zlen l1 = zlen l) by (apply splice_zlen; unfold zlen in *; cbn; lia).
    apply wp_bind, wp_slice; [lia|lia|]. apply wp_ret. rewrite Z.sub_0_r. rewrite seg_length_z by lia.
    assert (O1 : digits_ok B l1). { apply splice_ok; auto. constructor; auto. }
    assert (L2 : zlen (splice l1 0 (zrepeat 0 k)) = zlen l).
    { rewrite splice_zlen; auto; try lia. rewrite zlen_zrepeat; lia. }
    apply HQ. split; [split|split].
    + apply splice_ok; auto. apply zrepeat_ok; auto.
    + cbn [mp_len] in *. rewrite L2. auto.
    + split; auto. cbn [mp_len]. rewrite L2. auto.
    + cbn [mpval]. change (2 ^ (8 * LB)) with B. rewrite zero_below by (auto; lia).
      pose proof (ne_store_post l k (x - x mod 2 ^ (8 * r)) (conj Hl Hb) ltac:(lia) X) as SP. fold l1 in SP.
      change (digits_val B l1) with (mpval (NE l1)). change (digits_val B l) with (mpval (NE l)).
      rewrite (store_mod (NE l) (NE l1) k _ D0 SP).
      destruct SP as (_ & _ & SP). rewrite SP.
      replace (256 ^ n) with (B ^ k * 2 ^ (8 * r)).
      * rewrite mod_mul_split; [|apply Bpow_pos; lia|auto].
        assert (EY : (mpval (NE l) / B ^ k) mod 2 ^ (8 * r) = x mod 2 ^ (8 * r)).
        { unfold x. change (digits_val B l) with (mpval (NE l)).
          rewrite mod_B_sub by lia. reflexivity. }
        rewrite EY. change (limb (NE l) k) with x. lia.
      * rewrite Bpow256, <- pow256, <- Z.pow_add_r by (try (apply mul_nn; lia); lia). f_equal. unfold k, r. lia.
  - apply negb_false_iff, Z.eqb_eq in E2. apply wp_ret.
    assert (NL : ct_mp_nlimbs n = k) by (apply ct_mp_nlimbs_unique; lia). rewrite NL.
    set (k' := Z.min k (zlen l)).
    apply wp_bind, wp_slice; [lia|lia|]. apply wp_ret. rewrite Z.sub_0_r, seg_length_z by lia.
    assert (L2 : zlen (splice l 0 (zrepeat 0 k')) = zlen l).
    { rewrite splice_zlen; auto; try lia. rewrite zlen_zrepeat; lia. }
    apply HQ. split; [split|split].
    + apply splice_ok; auto. apply zrepeat_ok; auto.
    + cbn [mp_len] in *. rewrite L2. auto.
    + split; auto. cbn [mp_len]. rewrite L2. auto.
    + cbn [mpval]. change (2 ^ (8 * LB)) with B. rewrite zero_below by (auto; lia).
      replace (256 ^ n) with (B ^ k) by (rewrite Bpow256 by lia; f_equal; unfold k; lia).
      unfold k'. destruct (Z.min_spec k (zlen l)) as [[? ->]|[? ->]]; auto.
      rewrite !Z.mod_small; auto.
      * cbn [mpval] in VB. rewrite <- Bpow256 in VB by lia. change (2 ^ (8 * LB)) with B in VB.
        split; [lia|]. eapply Z.lt_le_trans; [apply VB|]. apply Z.pow_le_mono_r; lia.
      * cbn [mpval] in VB. rewrite <- Bpow256 in VB by lia. change (2 ^ (8 * LB)) with B in VB. auto.
Qed.

Lemma wp_ne_clear_below : forall l n (Q : list Z -> Prop), mp_ok (NE l) -> 0 <= n ->
  (n mod LB = 0 /\ n + LB < 2 ^ UW \/ n <= mp_len (NE l)) ->
  (forall l', clear_below_post (NE l) n (NE l') -> Q l') -> wp (ne_mp_clear_bytes_below l n) Q.
Proof.
  intros l n Q Hok Hn Hg HQ. apply wp_ne_clear_below_gen; auto; [|tauto]. apply unlimbs_ret; auto. destruct Hok as [_ Hb].
  pose proof UW_big as UB. change (2 ^ 32) with 4294967296 in UB. destruct LB_cases; lia.
Qed.

Lemma wp_clear_below : forall b n (Q : mp -> Prop), mp_ok b -> 0 <= n ->
  (supports_unaligned b = true \/ n mod LB = 0 /\ n + LB < 2 ^ UW \/ n <= mp_len b) ->
  (forall b', clear_below_post b n b' -> Q b') -> wp (clear_bytes_below b n) Q.
Proof.
  intros b n Q Hok Hn Hg HQ. unfold clear_bytes_below. apply wp_bind, wp_tick.
  assert (EQ : mpval b - mpval b mod 256 ^ n = mpval b - mpval b mod 256 ^ (Z.min n (mp_len b))).
  { pose proof (mp_len_nonneg b). destruct (Z.min_spec n (mp_len b)) as [[? ->]|[? ->]]; auto.
    rewrite !clear_all_mod; auto. lia. }
  unfold clear_below_post in HQ. rewrite EQ in HQ.
  pose proof (mp_len_nonneg b) as HZ.
  destruct b as [l|l|l].
  - cbn [mp_len] in *. set (n' := Z.min n (zlen l)) in *.
    apply wp_bind. unfold be_mp_clear_bytes_below. fold n'.
    apply wp_bind, wp_usub; [lia|]. apply wp_bind, wp_slice; [lia|lia|]. apply wp_ret, wp_ret.
    rewrite seg_length_z by lia.
    destruct Hok as [Hl Hb]. replace (zlen l - (zlen l - n')) with n' by lia.
    assert (L2 : zlen (splice l (zlen l - n') (zrepeat 0 n')) = zlen l).
    { rewrite splice_zlen; auto; try lia. rewrite zlen_zrepeat; lia. }
    apply HQ. split; [split|split].
    + apply splice_ok; auto. apply zrepeat_ok; lia.
    + cbn [mp_len] in *. rewrite L2. auto.
    + split; auto.
    + cbn [mpval]. unfold be_val. rewrite rev_splice by (rewrite ?zlen_zrepeat; lia).
      rewrite rev_zrepeat, zlen_zrepeat by lia.
      replace (zlen l - (zlen l - n') - n') with 0 by lia.
      rewrite zero_below; auto; try lia; [apply digits_ok_rev; auto|rewrite zlen_rev; lia].
  - cbn [mp_len] in *. set (n' := Z.min n (zlen l)) in *.
    apply wp_bind. unfold le_mp_clear_bytes_below. fold n'.
    apply wp_bind, wp_slice; [lia|lia|]. apply wp_ret, wp_ret. rewrite Z.sub_0_r, seg_length_z by lia.
    destruct Hok as [Hl Hb].
    assert (L2 : zlen (splice l 0 (zrepeat 0 n')) = zlen l).
    { rewrite splice_zlen; auto; try lia. rewrite zlen_zrepeat; lia. }
    apply HQ. split; [split|split].
    + apply splice_ok; auto. apply zrepeat_ok; lia.
    + cbn [mp_len] in *. rewrite L2. auto.
    + split; auto.
    + cbn [mpval]. unfold le_val. rewrite zero_below; auto; lia.
  - apply wp_bind. apply wp_ne_clear_below; auto.
    { destruct Hg as [Hg|Hg]; [discriminate|auto]. }
    intros l' H. apply wp_ret. apply HQ. rewrite <- EQ. auto.
Qed.

(** ** Scans *)
Lemma load_last_isl : forall b, mp_ok b -> 0 < nlimbs b -> isl (limb b (nlimbs b - 1)).
Proof. intros. apply limb_isl. Qed.

(** [n] is the number of significant limbs. *)
Definition is_nlimbs_of (v n : Z) : Prop := 0 <= n /\ 0 <= v < B ^ n /\ (n = 0 \/ vlimb v (n - 1) <> 0).

Lemma wp_fls_limb_loop : forall b n (Q : Z -> Prop), mp_ok b -> Z.of_nat n <= nlimbs b -> (Z.of_nat n < nlimbs b \/ mp_len b mod LB = 0 \/ n = O) ->
  mpval b < B ^ Z.of_nat n ->
  (forall k, is_nlimbs_of (mpval b) k -> k <= Z.of_nat n -> Q k) -> wp (fls_limb_loop n b) Q.
Proof.
  intros b. induction n; intros Q Hok Hn Hc Hv HQ; cbn [fls_limb_loop].
  - apply wp_bind, wp_tick, wp_ret, HQ; [|lia]. split; [lia|]. pose proof (mpval_nonneg b Hok).
    change (Z.of_nat 0) with 0 in Hv. split; [|auto]. rewrite Z.pow_0_r in *. lia.
  - apply wp_bind, wp_tick. apply wp_bind, wp_load_full; auto; [lia| |].
    { destruct Hc as [Hc|[Hc|Hc]]; [apply nlimbs_full; lia| |discriminate].
      pose proof (nlimbs_spec b). pose proof LB_pos. pose proof (Z.div_mod (mp_len b) LB).
      pose proof (mul_LB_lt (Z.of_nat n) (nlimbs b)).
      destruct (Z.eq_dec (nlimbs b) (mp_len b / LB)); [nia|]. exfalso.
      destruct LB_cases as [E|E]; rewrite E in *; lia. }
    apply wp_mif; intros E.
    + apply negb_true_iff, Z.eqb_neq in E. apply wp_ret, HQ; [|lia]. split; [lia|].
      pose proof (mpval_nonneg b Hok). split; [lia|]. right.
      replace (Z.of_nat (S n) - 1) with (Z.of_nat n) by lia. auto.
    + apply negb_false_iff, Z.eqb_eq in E. apply IHn; auto; try lia.
      * pose proof (mpval_nonneg b Hok). pose proof (vdiv_S (mpval b) (Z.of_nat n) ltac:(lia)) as D.
        rewrite <- limb_vlimb, E in D. replace (Z.of_nat n + 1) with (Z.of_nat (S n)) in D by lia.
        rewrite (Z.div_small _ (B ^ Z.of_nat (S n))) in D by lia.
        replace (0 + B * 0) with 0 in D by lia. apply Z.div_small_iff in D; [|pose proof (Bpow_pos (Z.of_nat n)); lia].
        pose proof (Bpow_pos (Z.of_nat n)); lia.
      * intros. apply HQ; auto. lia.
Qed.
Lemma wp_find_last_set_limb : forall b (Q : Z -> Prop), mp_ok b ->
  (forall k, is_nlimbs_of (mpval b) k -> k <= nlimbs b -> Q k) -> wp (find_last_set_limb b) Q.
Proof.
  intros b Q Hok HQ. unfold find_last_set_limb. pose proof (nlimbs_nonneg b). pose proof (mpval_bound_B b Hok).
  apply wp_mif; intros E.
  - apply Z.eqb_eq in E. rewrite E in *. apply wp_ret, HQ; [|lia]. split; [lia|]. auto.
  - apply Z.eqb_neq in E. apply wp_bind, wp_load; auto; [lia|]. apply wp_mif; intros E2.
    + apply Z.eqb_eq in E2. apply wp_fls_limb_loop; auto; try lia.
      * rewrite Z2Nat.id by lia. pose proof (vdiv_S (mpval b) (nlimbs b - 1)) as D. specialize (D ltac:(lia)).
        rewrite <- limb_vlimb, E2 in D. replace (nlimbs b - 1 + 1) with (nlimbs b) in D by lia.
        rewrite (Z.div_small _ (B ^ nlimbs b)) in D by lia.
        replace (0 + B * 0) with 0 in D by lia. apply Z.div_small_iff in D; [|pose proof (Bpow_pos (nlimbs b - 1)); lia].
        pose proof (Bpow_pos (nlimbs b - 1)); lia.
      * intros. apply HQ; auto. lia.
    + apply Z.eqb_neq in E2. apply wp_ret, HQ; [|lia]. split; [lia|]. split; [auto|]. right. auto.
Qed.

Lemma nbits_limbs : forall v n, 0 < n -> 0 <= v < B ^ n -> vlimb v (n - 1) <> 0 ->
  nbits v = (n - 1) * W + nbits (vlimb v (n - 1)).
Proof.
  intros v n Hn Hv Hl. pose proof W_pos. pose proof B_pos.
  assert (E : vlimb v (n - 1) = v / 2 ^ ((n - 1) * W)).
  { unfold vlimb. rewrite Bpow2 by lia. apply Z.mod_small. rewrite <- Bpow2 by lia.
    apply div_pos_bound; [apply Bpow_pos; lia|]. rewrite Z.mul_comm, <- Bpow_S by lia.
    replace (n - 1 + 1) with n by lia. auto. }
  rewrite E. apply nbits_shift; [apply mul_nn; lia| |lia].
  rewrite <- E. pose proof (vlimb_isl v (n - 1)). unfold isl in *. lia.
Qed.

Lemma wp_find_last_set_byte : forall b (Q : Z -> Prop), mp_ok b ->
  Q ((nbits (mpval b) + 7) / 8) -> wp (find_last_set_byte_mp b) Q.
Proof.
  intros b Q Hok HQ. unfold find_last_set_byte_mp. apply wp_bind, wp_find_last_set_limb; auto.
  intros k (H0 & Hv & Hl) Hk. pose proof LB_pos. apply wp_mif; intros E.
  - apply Z.eqb_eq in E. subst k. rewrite Z.pow_0_r in Hv. apply wp_ret.
    replace (mpval b) with 0 in HQ by lia. exact HQ.
  - apply Z.eqb_neq in E. destruct Hl as [Hl|Hl]; [lia|]. apply wp_bind, wp_load; auto; [lia|].
    apply wp_bind, wp_fls_byte; [apply limb_isl|]. apply wp_ret.
    rewrite (nbits_limbs _ k) in HQ by (auto; lia). rewrite limb_vlimb.
    replace ((k - 1) * W + nbits (vlimb (mpval b) (k - 1)) + 7) with
      (nbits (vlimb (mpval b) (k - 1)) + 7 + (k - 1) * LB * 8) in HQ by (unfold W; lia).
    rewrite Z.div_add in HQ by lia. rewrite Z.add_comm. auto.
Qed.

Lemma nbytes_le_iff : forall v n, 0 <= v -> 0 <= n -> ((nbits v + 7) / 8 <= n <-> v < 256 ^ n).
Proof.
  intros v n Hv Hn. rewrite pow256 by lia. pose proof (nbits_nonneg v).
  pose proof (Z.div_mod (nbits v + 7) 8 ltac:(lia)). pose proof (Z.mod_pos_bound (nbits v + 7) 8 ltac:(lia)).
  split; intros.
  - assert (nbits v <= 8 * n) by lia. destruct (Z.eq_dec v 0); [subst; apply pow2_gt0; lia|].
    pose proof (nbits_spec v ltac:(lia)) as NS. eapply Z.lt_le_trans; [apply NS|]. apply Z.pow_le_mono_r; lia.
  - assert (nbits v <= 8 * n) by (apply nbits_le; lia). lia.
Qed.

Lemma wp_find_first_set_bit : forall b (Q : Z * Z -> Prop), mp_ok b ->
  (mpval b = 0 -> Q (chc false, 0)) ->
  (forall r, mpval b <> 0 -> is_ffs (mpval b) r -> Q (chc true, r)) -> wp (ct_find_first_set_bit_mp b) Q.
Proof.
  intros b Q Hok HQ0 HQ1. unfold ct_find_first_set_bit_mp.
  pose proof (nlimbs_nonneg b) as HN. pose proof W_pos as HW. pose proof B_gt as HB.
  apply wp_bind, (wp_lc_new true); [reflexivity|].
  assert (SZ : nlimbs b * W < 2 ^ UW).
  { destruct Hok as [_ Hs]. pose proof (nlimbs_spec b). pose proof UW_gt. unfold W.
    destruct LB_cases as [E|E]; rewrite E in *; lia. }
  apply wp_bind.
  eapply wp_for with (I := fun i '(t, n) => exists z : bool, t = chc z /\
     (if z then mpval b mod B ^ i = 0 /\ n = i * W
      else is_ffs (mpval b) n /\ mpval b mod B ^ i <> 0 /\ 0 <= n < i * W)); [lia| | |].
  - exists true. split; auto. split; [apply vmod_0|lia].
  - intros i [t n] Hi (z & -> & Hz). apply wp_bind, wp_load; auto.
    pose proof (limb_isl b i) as LI. rewrite limb_vlimb in *.
    pose proof (vmod_S (mpval b) i ltac:(lia)) as VS. pose proof (vmod_bound (mpval b) i ltac:(lia)) as VB.
    pose proof (Bpow_pos i ltac:(lia)) as BP.
    apply wp_bind, wp_ffs; auto.
    + intros E0. apply wp_bind, wp_is_zero; auto. apply wp_bind, (wp_lc_new (vlimb (mpval b) i =? 0)); auto.
      apply wp_ret. exists (z && (vlimb (mpval b) i =? 0)). split; [apply lc_and_chc|].
      rewrite E0 in *. rewrite lc_select_chc; [|apply isl_0|unfold isl; destruct W_cases as [E|E]; rewrite E; lia].
      rewrite Z.eqb_refl, andb_true_r. destruct z.
      * destruct Hz as [Hz ->]. split; [rewrite VS, Hz|]; lia.
      * destruct Hz as (F & N & R). split; [|split; [rewrite VS|]; try lia].
        rewrite Z.add_0_r. auto.
    + intros r E0 F. assert (RW : r < W). { eapply is_ffs_bound; [|apply F]. apply LI. }
      assert (0 <= r) by apply F.
      apply wp_bind, wp_is_zero; auto. apply wp_bind, (wp_lc_new (vlimb (mpval b) i =? 0)); auto.
      apply wp_ret. exists (z && (vlimb (mpval b) i =? 0)). split; [apply lc_and_chc|].
      rewrite lc_select_chc; [|apply isl_0|unfold isl; destruct W_cases as [E|E]; rewrite E in *; lia].
      replace (vlimb (mpval b) i =? 0) with false by (symmetry; apply Z.eqb_neq; auto). rewrite andb_false_r.
      assert (NZ : mpval b mod B ^ (i + 1) <> 0).
      { rewrite VS. unfold isl in LI. nia. }
      destruct z.
      * destruct Hz as [Hz ->]. split; [|split; auto; lia].
        rewrite Bpow2 in Hz by lia.
        apply is_ffs_high; auto. { apply mul_nn; lia. }
        rewrite <- Bpow2 by lia. apply (is_ffs_low _ W); auto; lia.
      * destruct Hz as (F' & N & R). rewrite Z.add_0_r. split; [auto|split; [auto|lia]].
  - intros [t n] (z & -> & Hz). rewrite (vmod_full b (nlimbs b)) in Hz by (auto; lia).
    apply wp_ret. rewrite lc_not_chc. pose proof UW_gt. destruct z.
    + destruct Hz as [Hz ->]. rewrite lc_select_usize_chc by (try lia; (split; [apply mul_nn|]; lia)).
      apply HQ0; auto.
    + destruct Hz as (F & N & R). rewrite lc_select_usize_chc by lia. apply HQ1; auto.
Qed.

Lemma wp_find_last_set_bit : forall b (Q : Z * Z -> Prop), mp_ok b ->
  Q (chc (negb (mpval b =? 0)), nbits (mpval b)) -> wp (ct_find_last_set_bit_mp b) Q.
Proof.
  intros b Q Hok HQ. unfold ct_find_last_set_bit_mp.
  pose proof (nlimbs_nonneg b) as HN. pose proof W_pos as HW. pose proof B_gt as HB.
  apply wp_bind, (wp_lc_new true); [reflexivity|].
  apply wp_bind.
  eapply wp_for_down with (I := fun i '(t, n) => exists z : bool, t = chc z /\
     (if z then mpval b / B ^ i = 0 /\ n = (nlimbs b - i) * W
      else mpval b <> 0 /\ mpval b / B ^ i <> 0 /\ n = nlimbs b * W - nbits (mpval b))); [lia| | |].
  - exists true. split; auto. split; [apply vdiv_full; auto; lia|lia].
  - intros i [t n] Hi (z & -> & Hz). apply wp_bind, wp_load; auto.
    pose proof (limb_isl b i) as LI. rewrite limb_vlimb in *.
    pose proof (vdiv_S (mpval b) i ltac:(lia)) as VS.
    pose proof (Bpow_pos i ltac:(lia)) as BP.
    pose proof (mpval_nonneg b Hok) as VN.
    assert (0 <= mpval b / B ^ (i + 1)) by (apply Z.div_pos; [lia|apply Bpow_pos; lia]).
    apply wp_bind, wp_fls; auto.
    assert (NB : 0 <= nbits (vlimb (mpval b) i) <= W).
    { split; [apply nbits_nonneg|]. apply nbits_le; [lia|exact LI]. }
    apply wp_bind, wp_lsub; [destruct W_cases as [E|E]; rewrite E in *; lia|].
    apply wp_bind, wp_is_zero; auto. apply wp_bind, (wp_lc_new (vlimb (mpval b) i =? 0)); auto.
    apply wp_ret. exists (z && (vlimb (mpval b) i =? 0)). split; [apply lc_and_chc|].
    rewrite lc_select_chc; [|apply isl_0|unfold isl; destruct W_cases as [E|E]; rewrite E in *; lia].
    destruct z; cbn [andb].
    + destruct Hz as [Hz ->]. rewrite Hz in VS. destruct (Z.eqb_spec (vlimb (mpval b) i) 0) as [E|E].
      * rewrite E. rewrite nbits_0. split; lia.
      * split; [|split]; [intros E'; apply E; rewrite E'; unfold vlimb; rewrite Z.div_0_l, Z.mod_0_l by lia; auto|lia|].
        rewrite (nbits_limbs (mpval b) (i + 1)); try lia.
        -- replace (i + 1 - 1) with i by lia. lia.
        -- apply Z.div_small_iff in Hz; pose proof (Bpow_pos (i + 1) ltac:(lia)); lia.
        -- replace (i + 1 - 1) with i by lia. auto.
    + destruct Hz as (F & N & ->). split; [auto|split; [|lia]]. unfold isl in LI. nia.
  - intros [t n] (z & -> & Hz). rewrite Z.pow_0_r, Z.div_1_r in Hz.
    pose proof (mpval_bound_B b Hok) as VB. rewrite Bpow2 in VB by lia.
    pose proof (nbits_le (mpval b) (nlimbs b * W) ltac:(apply mul_nn; lia) VB).
    pose proof (nbits_nonneg (mpval b)).
    assert (N : n = nlimbs b * W - nbits (mpval b)).
    { destruct z; [|tauto]. destruct Hz as [-> ->]. rewrite nbits_0. lia. }
    apply wp_bind, wp_usub; [lia|]. apply wp_ret. rewrite lc_not_chc. subst n.
    replace (nlimbs b * W - (nlimbs b * W - nbits (mpval b))) with (nbits (mpval b)) by lia.
    replace (negb z) with (negb (mpval b =? 0)); auto. f_equal.
    destruct z; [destruct Hz as [-> _]; auto|]. apply Z.eqb_neq. tauto.
Qed.

End Facts.
