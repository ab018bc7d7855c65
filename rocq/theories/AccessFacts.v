(** Facts about limb accesses with arbitrary indices (C58). *)
From Coq Require Import ZArith List Bool Lia.
Require Import Verif.Spec Verif.Monad Verif.Base Verif.Wp Verif.Pan Verif.ModelLimb Verif.LimbFacts Verif.LimbFacts2
  Verif.ModelBuf Verif.SpecBuf Verif.BufFacts Verif.BufFacts2 Verif.ModelAccess Verif.SpecAccess.
Import ListNotations.
Open Scope Z_scope.

Section Facts.
Context {c : cfg}.

(** Offsets are multiples of the limb size, and so is the range of usize. *)
Lemma UW_LB : 2 ^ UW = 2 ^ UW / LB * LB.
Proof. destruct LB_cases as [E|E], UW_cases as [F|F]; rewrite E, F; reflexivity. Qed.
Lemma K_pos : 0 < 2 ^ UW / LB.
Proof. destruct LB_cases as [E|E], UW_cases as [F|F]; rewrite E, F; reflexivity. Qed.
Lemma wrap_off : forall i, (i * LB) mod 2 ^ UW = i mod (2 ^ UW / LB) * LB.
Proof. intros. rewrite UW_LB at 1. apply Z.mul_mod_distr_r; [pose proof K_pos|pose proof LB_pos]; lia. Qed.
Lemma off_max : forall j, j * LB < 2 ^ UW -> j * LB + LB <= 2 ^ UW.
Proof.
  intros j H. pose proof UW_LB as E. set (K := 2 ^ UW / LB) in *. pose proof LB_pos.
  assert (j < K) by nia. rewrite E. nia.
Qed.

(** The product of index and limb size: [j] is the index reached. *)
Definition reached (i j : Z) : Prop := 0 <= j /\ j * LB < 2 ^ UW /\ (i * LB < 2 ^ UW /\ j = i \/ debug c = false /\ j = i mod (2 ^ UW / LB)).
Lemma umul_reached : forall i, 0 <= i -> (debug c = true -> i * LB < 2 ^ UW) ->
  umul i LB = ret (i mod (2 ^ UW / LB) * LB) /\ 0 <= i mod (2 ^ UW / LB) /\ i mod (2 ^ UW / LB) * LB < 2 ^ UW.
Proof.
  intros i Hi HD. pose proof LB_pos. pose proof K_pos. pose proof (Z.mod_pos_bound i (2 ^ UW / LB) K_pos).
  assert (0 <= i * LB) by (apply mul_nn; lia).
  split; [|split; [lia|pose proof UW_LB as E; set (K := 2 ^ UW / LB) in *; rewrite E; nia]].
  rewrite <- wrap_off. unfold umul, ovf. destruct (Z.ltb_spec (i * LB) (2 ^ UW)) as [L|L].
  - replace (0 <=? i * LB) with true by (symmetry; apply Z.leb_le; lia). cbn [andb]. rewrite Z.mod_small by lia. reflexivity.
  - rewrite andb_false_r. destruct (debug c); [specialize (HD eq_refl); lia|reflexivity].
Qed.
Lemma umul_pan : forall i, 0 <= i -> debug c = true -> 2 ^ UW <= i * LB -> panics (umul i LB).
Proof.
  intros i Hi HD HL. unfold umul, ovf. replace (i * LB <? 2 ^ UW) with false by (symmetry; apply Z.ltb_ge; lia).
  rewrite andb_false_r, HD. reflexivity.
Qed.

(** A difference wrapping around. *)
Lemma usub_wrap : forall a b, debug c = false -> 0 <= a -> a < b -> b <= 2 ^ UW -> usub a b = ret (2 ^ UW + a - b).
Proof.
  intros a b D Ha Hb HU. unfold usub. replace (b <=? a) with false by (symmetry; apply Z.leb_gt; lia). rewrite D.
  f_equal. symmetry. apply Z.mod_unique with (-1); lia.
Qed.
Lemma usub_pan : forall a b, debug c = true -> a < b -> panics (usub a b).
Proof. intros a b D H. unfold usub. replace (b <=? a) with false by (symmetry; apply Z.leb_gt; lia). rewrite D. reflexivity. Qed.
Lemma uadd_ret : forall a b, 0 <= a + b < 2 ^ UW -> uadd a b = ret (a + b).
Proof.
  intros a b H. unfold uadd, ovf. replace (0 <=? a + b) with true by (symmetry; apply Z.leb_le; lia).
  replace (a + b <? 2 ^ UW) with true by (symmetry; apply Z.ltb_lt; lia). reflexivity.
Qed.
Lemma uadd_top : forall a, a + LB = 2 ^ UW -> panics (uadd a LB) \/ uadd a LB = ret 0.
Proof.
  intros a H. unfold uadd, ovf. rewrite H. replace (2 ^ UW <? 2 ^ UW) with false by (symmetry; apply Z.ltb_ge; lia).
  rewrite andb_false_r. destruct (debug c); [left; reflexivity|right]. rewrite Z.mod_same; [reflexivity|]. pose proof UW_gt. lia.
Qed.
Lemma ret_bind : forall A C (a : A) (f : A -> M C), bind (ret a) f = f a.
Proof. intros. unfold bind, ret. destruct (f a). reflexivity. Qed.
Lemma dassert_pan : forall b A (k : M A), debug c = true -> b = false -> panics (dassert b ;; k).
Proof. intros. apply pan_l, pan_dassert; auto. Qed.
Lemma dassert_release : forall b A (k : unit -> M A), debug c = false -> bind (dassert b) k = k tt.
Proof. intros. unfold dassert. rewrite H. apply ret_bind. Qed.
Lemma tick_pan : forall e A (k : unit -> M A), panics (k tt) -> panics (bind (tick e) k).
Proof. intros. apply pan_any. intros [] _. auto. Qed.

(** ** Loads *)

(** The bodies, from the offset [j * LB] on. *)
Definition be_body (l : list Z) (o : Z) : M Z :=
  dassert (o <=? zlen l) ;; let! src_end := usub (zlen l) o in
  mif (LB <=? src_end) then _be_mp_load_l_full l src_end else _be_mp_load_l_high_partial l src_end.
Lemma be_body_in : forall l j (Q : Z -> Prop), digits_ok 256 l -> 0 <= j -> j * LB <= zlen l ->
  Q ((be_val l / B ^ j) mod B) -> wp (be_body l (j * LB)) Q.
Proof.
  intros l j Q Hl Hj HL HQ. pose proof LB_pos. unfold be_body. apply wp_bind, wp_dassert; [apply Z.leb_le; lia|].
  apply wp_bind, wp_usub; [lia|]. apply wp_mif; intros E.
  - apply Z.leb_le in E. apply wp_be_full; auto; lia.
  - apply Z.leb_gt in E. apply wp_be_partial; auto; lia.
Qed.
Lemma be_body_out : forall l j, 0 <= j -> j * LB < 2 ^ UW -> zlen l < j * LB -> panics (be_body l (j * LB)).
Proof.
  intros l j Hj HU HL. pose proof LB_pos. pose proof (zlen_nonneg _ l). pose proof (off_max j HU). unfold be_body.
  destruct (debug c) eqn:D; [apply dassert_pan; auto; apply Z.leb_gt; lia|].
  rewrite dassert_release by auto. rewrite usub_wrap, ret_bind by (auto; lia).
  apply tick_pan. replace (LB <=? _) with true by (symmetry; apply Z.leb_le; lia).
  unfold _be_mp_load_l_full. apply pan_any. intros x _. apply pan_l, pan_slice. lia.
Qed.

Definition le_body (l : list Z) (o : Z) : M Z :=
  dassert (o <? zlen l) ;; let! src_end := uadd o LB in
  mif (src_end <=? zlen l) then _le_load_l_full_usize l o else _le_mp_load_l_high_partial l o.
Lemma le_full_eq : forall l o, 0 <= o -> o + LB < 2 ^ UW -> _le_load_l_full_usize l o = _le_mp_load_l_full l o.
Proof. intros. pose proof LB_pos. unfold _le_load_l_full_usize, _le_mp_load_l_full. rewrite uadd_ret by lia. apply ret_bind. Qed.
Lemma le_body_in : forall l j (Q : Z -> Prop), digits_ok 256 l -> 16 * zlen l < 2 ^ UW -> 0 <= j -> j * LB <= zlen l ->
  (debug c = true -> j * LB < zlen l) -> Q ((le_val l / B ^ j) mod B) -> wp (le_body l (j * LB)) Q.
Proof.
  intros l j Q Hl HU Hj HL HD HQ. pose proof LB_pos. pose proof UW_gt. assert (0 <= j * LB) by (apply mul_nn; lia).
  assert (LB <= 8) by (destruct LB_cases; lia). unfold le_body.
  assert (DA : forall k : unit -> M Z, wp (k tt) Q -> wp (bind (dassert (j * LB <? zlen l)) k) Q).
  { intros k Hk. destruct (debug c) eqn:D; [|rewrite dassert_release; auto].
    apply wp_bind, wp_dassert; [apply Z.ltb_lt; auto|auto]. }
  apply DA. rewrite uadd_ret, ret_bind by lia. rewrite le_full_eq by lia.
  apply wp_mif; intros E.
  - apply Z.leb_le in E. apply wp_le_full; auto; lia.
  - apply Z.leb_gt in E. apply wp_le_partial; auto; lia.
Qed.
Lemma le_body_out : forall l j, 0 <= j -> j * LB < 2 ^ UW -> zlen l <= j * LB -> (zlen l < j * LB \/ debug c = true) -> panics (le_body l (j * LB)).
Proof.
  intros l j Hj HU HL HD. pose proof LB_pos. pose proof (zlen_nonneg _ l). pose proof (off_max j HU). unfold le_body.
  destruct (debug c) eqn:D; [apply dassert_pan; auto; apply Z.ltb_ge; lia|].
  destruct HD as [HD|?]; [|discriminate].
  rewrite dassert_release by auto. destruct (Z.eq_dec (j * LB + LB) (2 ^ UW)) as [E|E].
  - destruct (uadd_top _ E) as [P|P]; [apply pan_l; auto|]. rewrite P, ret_bind. apply tick_pan.
    replace (0 <=? zlen l) with true by (symmetry; apply Z.leb_le; lia).
    unfold _le_load_l_full_usize. rewrite P, ret_bind. apply pan_l, pan_slice. lia.
  - rewrite uadd_ret, ret_bind by lia. apply tick_pan.
    replace (_ <=? _) with false by (symmetry; apply Z.leb_gt; lia).
    unfold _le_mp_load_l_high_partial. rewrite usub_wrap, ret_bind by (auto; lia).
    apply pan_l, pan_slice. rewrite zlen_zrepeat by lia. lia.
Qed.

(** ** Full loads *)
Definition be_fbody (l : list Z) (o : Z) : M Z :=
  dassert (o <? zlen l) ;; let! src_end := usub (zlen l) o in _be_mp_load_l_full l src_end.
Lemma be_fbody_in : forall l j (Q : Z -> Prop), digits_ok 256 l -> 0 <= j -> (j + 1) * LB <= zlen l ->
  Q ((be_val l / B ^ j) mod B) -> wp (be_fbody l (j * LB)) Q.
Proof.
  intros l j Q Hl Hj HL HQ. pose proof LB_pos. unfold be_fbody. apply wp_bind, wp_dassert; [apply Z.ltb_lt; lia|].
  apply wp_bind, wp_usub; [lia|]. apply wp_be_full; auto.
Qed.
Lemma usub_big : forall a b x, 0 <= a -> a < b -> b <= 2 ^ UW -> returns (usub a b) x -> x = 2 ^ UW + a - b.
Proof.
  intros a b x Ha Hb HU HR. destruct (debug c) eqn:D.
  - exfalso. exact (pan_not _ _ _ (usub_pan a b D Hb) HR).
  - rewrite usub_wrap in HR by auto. injection HR as <-. reflexivity.
Qed.
Lemma be_full_out : forall (l : list Z) j, 0 <= j -> 16 * zlen l < 2 ^ UW -> j * LB < 2 ^ UW -> zlen l < (j + 1) * LB -> forall x, returns (usub (zlen l) (j * LB)) x ->
  forall y, returns (usub x LB) y -> y < 0 \/ x < y \/ zlen l < x.
Proof.
  intros l j Hj HS HU HL x Hx y Hy. pose proof LB_pos. pose proof (zlen_nonneg _ l). pose proof (off_max j HU). pose proof UW_gt.
  assert (LB <= 8) by (destruct LB_cases; lia). assert (0 <= j * LB) by (apply mul_nn; lia).
  destruct (Z.le_gt_cases (j * LB) (zlen l)) as [E|E].
  - unfold usub in Hx. replace (_ <=? _) with true in Hx by (symmetry; apply Z.leb_le; lia). injection Hx as <-.
    apply usub_big in Hy; [|lia..]. lia.
  - apply usub_big in Hx; [|lia..]. lia.
Qed.
Lemma be_fbody_out : forall l j, 16 * zlen l < 2 ^ UW -> 0 <= j -> j * LB < 2 ^ UW -> zlen l < (j + 1) * LB -> panics (be_fbody l (j * LB)).
Proof.
  intros l j HS Hj HU HL. unfold be_fbody. apply pan_any. intros [] _. apply pan_any. intros x Hx.
  unfold _be_mp_load_l_full. apply pan_any. intros y Hy. apply pan_l, pan_slice. eapply be_full_out; eauto.
Qed.
Definition le_fbody (l : list Z) (o : Z) : M Z := dassert (o <? zlen l) ;; _le_load_l_full_usize l o.
Lemma le_fbody_in : forall l j (Q : Z -> Prop), digits_ok 256 l -> 16 * zlen l < 2 ^ UW -> 0 <= j -> (j + 1) * LB <= zlen l ->
  Q ((le_val l / B ^ j) mod B) -> wp (le_fbody l (j * LB)) Q.
Proof.
  intros l j Q Hl HU Hj HL HQ. pose proof LB_pos. assert (0 <= j * LB) by (apply mul_nn; lia).
  unfold le_fbody. apply wp_bind, wp_dassert; [apply Z.ltb_lt; lia|]. rewrite le_full_eq by lia. apply wp_le_full; auto.
Qed.
Lemma le_full_range : forall (l : list Z) j, 0 <= j -> j * LB < 2 ^ UW -> zlen l < (j + 1) * LB -> forall x, returns (uadd (j * LB) LB) x -> x < j * LB \/ zlen l < x.
Proof.
  intros l j Hj HU HL x Hx. pose proof LB_pos. pose proof (off_max j HU). assert (0 <= j * LB) by (apply mul_nn; lia).
  pose proof (zlen_nonneg _ l). destruct (Z.eq_dec (j * LB + LB) (2 ^ UW)) as [E|E].
  - destruct (uadd_top _ E) as [P|P]; [exfalso; exact (pan_not _ _ _ P Hx)|]. rewrite P in Hx. injection Hx as <-. 
    pose proof UW_gt. assert (LB <= 8) by (destruct LB_cases; lia). lia.
  - rewrite uadd_ret in Hx by lia. injection Hx as <-. lia.
Qed.
Lemma le_fbody_out : forall l j, 0 <= j -> j * LB < 2 ^ UW -> zlen l < (j + 1) * LB -> panics (le_fbody l (j * LB)).
Proof.
  intros l j Hj HU HL. unfold le_fbody. apply pan_any. intros [] _. unfold _le_load_l_full_usize. apply pan_any. intros x Hx.
  apply pan_l, pan_slice. pose proof (le_full_range l j Hj HU HL x Hx). tauto.
Qed.

(** ** Stores *)

(** A store keeps the low bytes of the value. *)
Lemma le_bytes_firstn : forall m n v, (n <= m)%nat -> firstn n (le_bytes m v) = le_bytes n v.
Proof. induction m; intros [|n] v H; cbn [le_bytes firstn]; auto; [lia|]. f_equal. apply IHm. lia. Qed.
Lemma le_bytes_mod : forall n v, le_bytes n (v mod 256 ^ Z.of_nat n) = le_bytes n v.
Proof.
  induction n; intros v; [reflexivity|]. cbn [le_bytes].
  assert (P : 0 < 256 ^ Z.of_nat n) by (apply Z.pow_pos_nonneg; lia).
  replace (256 ^ Z.of_nat (S n)) with (256 * 256 ^ Z.of_nat n) by (rewrite Nat2Z.inj_succ, Z.pow_succ_r by lia; ring).
  f_equal.
  - rewrite Z.rem_mul_r by lia. rewrite Z.mul_comm, Z_mod_plus_full. apply Z.mod_mod. lia.
  - rewrite Z.rem_mul_r by lia. rewrite Z.mul_comm, Z_div_plus_full by lia. rewrite (Z.div_small (v mod 256)) by (apply Z.mod_pos_bound; lia).
    apply IHn.
Qed.
Lemma trunc_le : forall n v, 0 <= n <= LB -> firstn (Z.to_nat n) (to_le_bytes (v mod 256 ^ n)) = firstn (Z.to_nat n) (to_le_bytes v).
Proof.
  intros n v H. unfold to_le_bytes. rewrite !le_bytes_firstn by lia.
  rewrite <- (le_bytes_mod _ v). rewrite Z2Nat.id by lia. reflexivity.
Qed.
Lemma trunc_be : forall n v, 0 <= n <= LB ->
  firstn (Z.to_nat n) (skipn (Z.to_nat (LB - n)) (to_be_bytes (v mod 256 ^ n))) =
  firstn (Z.to_nat n) (skipn (Z.to_nat (LB - n)) (to_be_bytes v)).
Proof.
  intros n v H. rewrite <- (rev_involutive (firstn _ (skipn _ (to_be_bytes (v mod 256 ^ n))))), <- (rev_involutive (firstn _ (skipn _ (to_be_bytes v)))).
  rewrite !to_be_seg, trunc_le by lia. reflexivity.
Qed.

Lemma bind_assoc_snd : forall A C D (m : M A) (f : A -> M C) (g : C -> M D), snd (bind (bind m f) g) = snd (bind m (fun a => bind (f a) g)).
Proof. intros A C D [t [a|]] f g; cbn; [destruct (f a) as [t' [x|]]|]; cbn; reflexivity. Qed.

Definition be_sbody (l : list Z) (o v : Z) : M (list Z) :=
  dassert (o <=? zlen l) ;; let! dst_end := usub (zlen l) o in
  mif (LB <=? dst_end) then _be_mp_store_l_full l dst_end v
  else dassert_m (let! h := lshr v (8 * dst_end) in ret (h =? 0)) ;; _be_mp_store_l_high_partial l dst_end v.
Lemma dassert_m_wp : forall (m : M bool) A (k : unit -> M A) (Q : A -> Prop), (debug c = true -> wp m (fun b => b = true)) -> wp (k tt) Q -> wp (bind (dassert_m m) k) Q.
Proof.
  intros m A k Q H HQ. apply wp_bind. unfold dassert_m. destruct (debug c); [|exact HQ].
  apply wp_bind. eapply wp_mono; [apply H; reflexivity|]. intros b ->. exact HQ.
Qed.
Lemma dassert_m_pan : forall (m : M bool) A (k : unit -> M A), debug c = true -> wp m (fun b => b = false) -> panics (bind (dassert_m m) k).
Proof.
  intros m A k D H. apply pan_l. unfold dassert_m. rewrite D. apply pan_wp. eapply wp_mono; [exact H|]. intros b ->. reflexivity.
Qed.

Lemma room_part : forall b j, 0 <= j -> j * LB <= mp_len b -> mp_len b < (j + 1) * LB -> limb_room b j = 256 ^ (mp_len b - j * LB).
Proof. intros. unfold limb_room. rewrite Z.min_r by lia. reflexivity. Qed.
Lemma room_full : forall b j, (j + 1) * LB <= mp_len b -> limb_room b j = B.
Proof. intros. unfold limb_room. rewrite Z.min_l by lia. rewrite B_256'. reflexivity. Qed.

Lemma shr_small : forall v n, 0 <= v -> 0 <= n < LB -> wp (let! h := lshr v (8 * n) in ret (h =? 0)) (fun b => b = (v <? 256 ^ n)).
Proof.
  intros v n Hv Hn. apply wp_bind, wp_lshr; [unfold W; lia|]. apply wp_ret. rewrite <- pow256 by lia.
  pose proof (p256_pos n ltac:(lia)). apply Bool.eq_iff_eq_true. rewrite Z.eqb_eq, Z.ltb_lt. split; intros E.
  - apply Z.div_small_iff in E; lia.
  - apply Z.div_small. lia.
Qed.

Lemma be_sbody_in : forall l j v (Q : list Z -> Prop), mp_ok (BE l) -> 0 <= j -> j * LB <= zlen l -> isl v ->
  (debug c = true -> v < limb_room (BE l) j) ->
  (forall l', store_post (BE l) j (v mod limb_room (BE l) j) (BE l') -> Q l') -> wp (be_sbody l (j * LB) v) Q.
Proof.
  intros l j v Q Hl Hj HL Hv HD HQ. pose proof LB_pos. assert (0 <= j * LB) by (apply mul_nn; lia). unfold be_sbody.
  apply wp_bind, wp_dassert; [apply Z.leb_le; lia|]. apply wp_bind, wp_usub; [lia|]. apply wp_mif; intros E.
  - apply Z.leb_le in E. rewrite room_full in HQ by (cbn [mp_len]; lia). rewrite Z.mod_small in HQ by exact Hv.
    apply wp_be_store_full; auto; lia.
  - apply Z.leb_gt in E. rewrite room_part in * by (cbn [mp_len]; lia). cbn [mp_len] in *. set (n := zlen l - j * LB) in *.
    apply dassert_m_wp. { intros D. eapply wp_mono; [apply shr_small; unfold isl in *; lia|]. intros b ->. apply Z.ltb_lt. auto. }
    unfold _be_mp_store_l_high_partial. apply wp_bind, wp_slice; [lia|lia|]. apply wp_bind, wp_usub; [lia|].
    apply wp_bind, wp_slice; [lia|unfold to_be_bytes; rewrite zlen_rev, to_le_len; lia|].
    apply wp_ret, HQ. replace (splice l 0) with (splice l (zlen l - j * LB - n)) by (f_equal; unfold n; lia).
    replace (LB - (LB - n)) with n by lia. rewrite <- trunc_be by lia.
    apply be_store_post; auto; try (unfold n; lia). apply Z.mod_pos_bound, p256_pos. lia.
Qed.
Lemma be_sbody_big : forall l j v, mp_ok (BE l) -> 0 <= j -> j * LB <= zlen l -> isl v -> debug c = true -> limb_room (BE l) j <= v ->
  panics (be_sbody l (j * LB) v).
Proof.
  intros l j v Hl Hj HL Hv HD HR. pose proof LB_pos. assert (0 <= j * LB) by (apply mul_nn; lia). unfold be_sbody.
  apply pan_any. intros [] _. apply pan_wp. apply wp_usub; [lia|]. apply pan_mif; intros E.
  - exfalso. apply Z.leb_le in E. rewrite room_full in HR by (cbn [mp_len]; lia). unfold isl in *. lia.
  - apply Z.leb_gt in E. rewrite room_part in * by (cbn [mp_len]; lia). cbn [mp_len] in *.
    apply dassert_m_pan; auto. eapply wp_mono; [apply shr_small; unfold isl in *; lia|]. intros b ->. apply Z.ltb_ge. auto.
Qed.
Lemma be_sbody_out : forall l j v, 0 <= j -> j * LB < 2 ^ UW -> zlen l < j * LB -> panics (be_sbody l (j * LB) v).
Proof.
  intros l j v Hj HU HL. pose proof LB_pos. pose proof (zlen_nonneg _ l). pose proof (off_max j HU). unfold be_sbody.
  destruct (debug c) eqn:D; [apply dassert_pan; auto; apply Z.leb_gt; lia|].
  rewrite dassert_release by auto. rewrite usub_wrap, ret_bind by (auto; lia).
  apply tick_pan. replace (LB <=? _) with true by (symmetry; apply Z.leb_le; lia).
  unfold _be_mp_store_l_full. apply pan_any. intros x _. apply pan_l, pan_slice. lia.
Qed.

Definition le_sbody (l : list Z) (o v : Z) : M (list Z) :=
  dassert (o <? zlen l) ;; let! dst_end := uadd o LB in
  mif (dst_end <=? zlen l) then _le_store_l_full_usize l o v
  else dassert_m (let! d := usub (zlen l) o in let! h := lshr v (8 * d) in ret (h =? 0)) ;; _le_mp_store_l_high_partial l o v.
Lemma le_sfull_eq : forall l o v, 0 <= o -> o + LB < 2 ^ UW -> _le_store_l_full_usize l o v = _le_mp_store_l_full l o v.
Proof. intros. pose proof LB_pos. unfold _le_store_l_full_usize, _le_mp_store_l_full. rewrite uadd_ret by lia. apply ret_bind. Qed.
Lemma shr_small' : forall a b v n, n = a - b -> b <= a -> 0 <= v -> 0 <= n < LB ->
  wp (let! d := usub a b in let! h := lshr v (8 * d) in ret (h =? 0)) (fun b => b = (v <? 256 ^ n)).
Proof. intros a b v n -> Hab Hv Hn. apply wp_bind, wp_usub; [lia|]. apply shr_small; auto. Qed.
Lemma le_sbody_in : forall l j v (Q : list Z -> Prop), mp_ok (LE l) -> 0 <= j -> j * LB <= zlen l -> (debug c = true -> j * LB < zlen l) -> isl v ->
  (debug c = true -> v < limb_room (LE l) j) ->
  (forall l', store_post (LE l) j (v mod limb_room (LE l) j) (LE l') -> Q l') -> wp (le_sbody l (j * LB) v) Q.
Proof.
  intros l j v Q Hl Hj HL HLD Hv HD HQ. pose proof LB_pos. assert (0 <= j * LB) by (apply mul_nn; lia). pose proof UW_gt.
  assert (LB <= 8) by (destruct LB_cases; lia). pose proof (proj2 Hl) as HU. cbn [mp_len] in HU. unfold le_sbody.
  assert (DA : forall k : unit -> M (list Z), wp (k tt) Q -> wp (bind (dassert (j * LB <? zlen l)) k) Q).
  { intros k Hk. destruct (debug c) eqn:D; [|rewrite dassert_release; auto].
    apply wp_bind, wp_dassert; [apply Z.ltb_lt; auto|auto]. }
  apply DA. clear DA. rewrite uadd_ret, ret_bind by lia. rewrite le_sfull_eq by lia. apply wp_mif; intros E.
  - apply Z.leb_le in E. rewrite room_full in HQ by (cbn [mp_len]; lia). rewrite Z.mod_small in HQ by exact Hv.
    apply wp_le_store_full; auto; lia.
  - apply Z.leb_gt in E. rewrite room_part in * by (cbn [mp_len]; lia). cbn [mp_len] in *.
    apply dassert_m_wp. { intros D. eapply wp_mono; [apply (shr_small' _ _ _ _ eq_refl); unfold isl in *; lia|]. intros b ->. apply Z.ltb_lt. auto. }
    set (n := zlen l - j * LB) in *.
    unfold _le_mp_store_l_high_partial. apply wp_bind, wp_slice; [lia|lia|]. apply wp_bind, wp_usub; [lia|].
    apply wp_bind, wp_slice; [lia|rewrite to_le_len; lia|].
    apply wp_ret, HQ. fold n. rewrite Z.sub_0_r. cbn [skipn Z.to_nat]. rewrite <- trunc_le by lia.
    apply le_store_post; auto; try (unfold n; lia). apply Z.mod_pos_bound, p256_pos. lia.
Qed.
Lemma le_sbody_big : forall l j v, mp_ok (LE l) -> 0 <= j -> j * LB <= zlen l -> isl v -> debug c = true -> limb_room (LE l) j <= v ->
  panics (le_sbody l (j * LB) v).
Proof.
  intros l j v Hl Hj HL Hv HD HR. pose proof LB_pos. assert (0 <= j * LB) by (apply mul_nn; lia). pose proof UW_gt.
  assert (LB <= 8) by (destruct LB_cases; lia). pose proof (proj2 Hl) as HU. cbn [mp_len] in HU. unfold le_sbody.
  apply pan_any. intros [] _. rewrite uadd_ret, ret_bind by lia. apply pan_mif; intros E.
  - exfalso. apply Z.leb_le in E. rewrite room_full in HR by (cbn [mp_len]; lia). unfold isl in *. lia.
  - apply Z.leb_gt in E. rewrite room_part in * by (cbn [mp_len]; lia). cbn [mp_len] in *.
    apply dassert_m_pan; auto. eapply wp_mono; [apply (shr_small' _ _ _ _ eq_refl); unfold isl in *; lia|]. intros b ->. apply Z.ltb_ge. auto.
Qed.
Lemma le_sbody_out : forall l j v, 0 <= j -> j * LB < 2 ^ UW -> zlen l <= j * LB -> (zlen l < j * LB \/ debug c = true) -> panics (le_sbody l (j * LB) v).
Proof.
  intros l j v Hj HU HL HD. pose proof LB_pos. pose proof (zlen_nonneg _ l). pose proof (off_max j HU). unfold le_sbody.
  destruct (debug c) eqn:D; [apply dassert_pan; auto; apply Z.ltb_ge; lia|].
  destruct HD as [HD|?]; [|discriminate].
  rewrite dassert_release by auto. destruct (Z.eq_dec (j * LB + LB) (2 ^ UW)) as [E|E].
  - destruct (uadd_top _ E) as [P|P]; [apply pan_l; auto|]. rewrite P, ret_bind. apply tick_pan.
    replace (0 <=? zlen l) with true by (symmetry; apply Z.leb_le; lia).
    unfold _le_store_l_full_usize. rewrite P, ret_bind. apply pan_l, pan_slice. lia.
  - rewrite uadd_ret, ret_bind by lia. apply tick_pan.
    replace (_ <=? _) with false by (symmetry; apply Z.leb_gt; lia).
    apply pan_any. intros [] _. unfold _le_mp_store_l_high_partial. apply pan_l, pan_slice. lia.
Qed.

(** ** Full stores *)
Definition be_sfbody (l : list Z) (o v : Z) : M (list Z) :=
  dassert (o <? zlen l) ;; let! dst_end := usub (zlen l) o in _be_mp_store_l_full l dst_end v.
Lemma be_sfbody_in : forall l j v (Q : list Z -> Prop), mp_ok (BE l) -> 0 <= j -> (j + 1) * LB <= zlen l -> isl v ->
  (forall l', store_post (BE l) j v (BE l') -> Q l') -> wp (be_sfbody l (j * LB) v) Q.
Proof.
  intros l j v Q Hl Hj HL Hv HQ. pose proof LB_pos. unfold be_sfbody. apply wp_bind, wp_dassert; [apply Z.ltb_lt; lia|].
  apply wp_bind, wp_usub; [lia|]. apply wp_be_store_full; auto.
Qed.
Lemma be_sfbody_out : forall l j v, 16 * zlen l < 2 ^ UW -> 0 <= j -> j * LB < 2 ^ UW -> zlen l < (j + 1) * LB -> panics (be_sfbody l (j * LB) v).
Proof.
  intros l j v HS Hj HU HL. unfold be_sfbody. apply pan_any. intros [] _. apply pan_any. intros x Hx.
  unfold _be_mp_store_l_full. apply pan_any. intros y Hy. apply pan_l, pan_slice. eapply be_full_out; eauto.
Qed.
Definition le_sfbody (l : list Z) (o v : Z) : M (list Z) := dassert (o <? zlen l) ;; _le_store_l_full_usize l o v.
Lemma le_sfbody_in : forall l j v (Q : list Z -> Prop), mp_ok (LE l) -> 0 <= j -> (j + 1) * LB <= zlen l -> isl v ->
  (forall l', store_post (LE l) j v (LE l') -> Q l') -> wp (le_sfbody l (j * LB) v) Q.
Proof.
  intros l j v Q Hl Hj HL Hv HQ. pose proof LB_pos. assert (0 <= j * LB) by (apply mul_nn; lia).
  pose proof (proj2 Hl) as HU. cbn [mp_len] in HU.
  unfold le_sfbody. apply wp_bind, wp_dassert; [apply Z.ltb_lt; lia|]. rewrite le_sfull_eq by lia. apply wp_le_store_full; auto.
Qed.
Lemma le_sfbody_out : forall l j v, 0 <= j -> j * LB < 2 ^ UW -> zlen l < (j + 1) * LB -> panics (le_sfbody l (j * LB) v).
Proof.
  intros l j v Hj HU HL. unfold le_sfbody. apply pan_any. intros [] _. unfold _le_store_l_full_usize. apply pan_any. intros x Hx.
  apply pan_l, pan_slice. pose proof (le_full_range l j Hj HU HL x Hx). tauto.
Qed.

End Facts.
