(** Rules for computations which may panic, if so allowed, and stores of too large limbs. *)
From Coq Require Import ZArith List Bool Lia.
Require Import Verif.Spec Verif.Base Verif.Monad Verif.Wp Verif.Pan Verif.ModelLimb Verif.LimbFacts Verif.LimbFacts2
  Verif.ModelBuf Verif.SpecBuf Verif.BufFacts.
Import ListNotations.
Open Scope Z_scope.

(** Every result satisfies [Q], and there is one unless [e]. *)
Definition wx {A} (e : bool) (m : M A) (Q : A -> Prop) : Prop :=
  match snd m with Some a => Q a | None => e = true end.

Lemma wx_wp : forall A e (m : M A) Q, wp m Q -> wx e m Q.
Proof. intros A e [t [a|]] Q H; unfold wx, wp in *; cbn in *; [auto|tauto]. Qed.
Lemma wp_wx : forall A (m : M A) Q, wx false m Q -> wp m Q.
Proof. intros A [t [a|]] Q H; unfold wx, wp in *; cbn in *; [auto|discriminate]. Qed.
Lemma wx_pan : forall A (m : M A), wx true m (fun _ => False) -> panics m.
Proof. intros A [t [a|]] H; unfold wx, panics in *; cbn in *; [contradiction|auto]. Qed.
Lemma pan_wx : forall A (m : M A) Q, panics m -> wx true m Q.
Proof. intros A [t [a|]] Q H; unfold wx, panics in *; cbn in *; [discriminate|auto]. Qed.
Lemma wx_mono : forall A e (m : M A) (Q Q' : A -> Prop), wx e m Q -> (forall a, Q a -> Q' a) -> wx e m Q'.
Proof. intros A e [t [a|]] Q Q' H HQ; unfold wx in *; cbn in *; auto. Qed.
Lemma wx_ret : forall A e (a : A) (Q : A -> Prop), Q a -> wx e (ret a) Q.
Proof. intros. exact H. Qed.
(** The first part does not panic. *)
Lemma wx_bind : forall A C e (m : M A) (f : A -> M C) (Q : C -> Prop),
  wp m (fun a => wx e (f a) Q) -> wx e (bind m f) Q.
Proof.
  intros A C e [t [a|]] f Q H; unfold wx, wp, bind in *; cbn in *; [|tauto].
  destruct (f a) as [t' [b|]]; cbn in *; auto.
Qed.
Lemma wx_bindx : forall A C e (m : M A) (f : A -> M C) (Q : C -> Prop),
  wx e m (fun a => wx e (f a) Q) -> wx e (bind m f) Q.
Proof.
  intros A C e [t [a|]] f Q H; unfold wx, bind in *; cbn in *; [|auto].
  destruct (f a) as [t' [b|]]; cbn in *; auto.
Qed.
Lemma wx_mif : forall A e (b : bool) (m1 m2 : M A) Q,
  (b = true -> wx e m1 Q) -> (b = false -> wx e m2 Q) -> wx e (mif b then m1 else m2) Q.
Proof. intros. apply wx_bind, wp_tick. destruct b; auto. Qed.
Lemma wx_for_down_aux : forall S e (body : Z -> S -> M S) (I : Z -> S -> Prop) n lo s,
  (forall j s, lo <= j < lo + Z.of_nat n -> I (j + 1) s -> wx e (body j s) (fun s' => I j s')) ->
  I (lo + Z.of_nat n) s -> wx e (for_down_aux n lo body s) (I lo).
Proof.
  intros S e body I n. induction n; intros lo s Hb Hi; cbn [for_down_aux].
  - apply wx_bind, wp_tick, wx_ret. rewrite Z.add_0_r in Hi. auto.
  - apply wx_bind, wp_tick, wx_bindx.
    eapply wx_mono; [apply Hb; [lia|]|].
    + replace (lo + Z.of_nat n + 1) with (lo + Z.of_nat (Datatypes.S n)) by lia. auto.
    + cbn beta. intros. apply IHn; auto. intros. apply Hb; auto. lia.
Qed.
Lemma wx_for_down : forall S e (I : Z -> S -> Prop) lo hi (body : Z -> S -> M S) s (Q : S -> Prop),
  lo <= hi -> I hi s ->
  (forall i s, lo <= i < hi -> I (i + 1) s -> wx e (body i s) (fun s' => I i s')) ->
  (forall s, I lo s -> Q s) ->
  wx e (zfor_down lo hi body s) Q.
Proof.
  intros. unfold zfor_down. eapply wx_mono; [apply wx_for_down_aux with (I := I); auto|auto].
  - intros. apply H1; auto. lia.
  - replace (lo + Z.of_nat (Z.to_nat (hi - lo))) with hi by lia. auto.
Qed.

Lemma wx_for_aux : forall S e (body : Z -> S -> M S) (I : Z -> S -> Prop) n i s,
  (forall j s, i <= j < i + Z.of_nat n -> I j s -> wx e (body j s) (fun s' => I (j + 1) s')) ->
  I i s -> wx e (for_aux n i body s) (I (i + Z.of_nat n)).
Proof.
  intros S e body I n. induction n; intros i s Hb Hi; cbn [for_aux].
  - apply wx_bind, wp_tick, wx_ret. rewrite Z.add_0_r. auto.
  - apply wx_bind, wp_tick, wx_bindx.
    eapply wx_mono; [apply Hb; [lia|auto]|]. cbn beta. intros a Ha.
    replace (i + Z.of_nat (Datatypes.S n)) with (i + 1 + Z.of_nat n) by lia. apply IHn; auto. intros. apply Hb; auto. lia.
Qed.
Lemma wx_for : forall S e (I : Z -> S -> Prop) lo hi (body : Z -> S -> M S) s (Q : S -> Prop),
  lo <= hi -> I lo s ->
  (forall i s, lo <= i < hi -> I i s -> wx e (body i s) (fun s' => I (i + 1) s')) ->
  (forall s, I hi s -> Q s) ->
  wx e (zfor lo hi body s) Q.
Proof.
  intros. unfold zfor. eapply wx_mono; [apply wx_for_aux with (I := I); auto|].
  - intros. apply H1; auto. lia.
  - cbn beta. intros a. replace (lo + Z.of_nat (Z.to_nat (hi - lo))) with hi by lia. auto.
Qed.

Ltac xb := lazymatch goal with |- wx _ _ _ => apply wx_bind | |- _ => apply wp_bind end.
Ltac xr := lazymatch goal with |- wx _ _ _ => apply wx_ret | |- _ => apply wp_ret end.
Ltac xm := lazymatch goal with |- wx _ _ _ => apply wx_mif | |- _ => apply wp_mif end.

(** ** Storing a limb with no regard to its size *)
Lemma le_bytes_mod : forall r v, le_bytes r (v mod 256 ^ Z.of_nat r) = le_bytes r v.
Proof.
  induction r as [|r IH]; intros v; cbn [le_bytes]; auto.
  rewrite Nat2Z.inj_succ, Z.pow_succ_r by lia. assert (0 < 256 ^ Z.of_nat r) by (apply Z.pow_pos_nonneg; lia).
  rewrite Z.rem_mul_r by lia. f_equal.
  - rewrite Z.mul_comm, Z.mod_add by lia. apply Z.mod_mod. lia.
  - rewrite Z.mul_comm, Z.div_add by lia. rewrite Z.div_small by (apply Z.mod_pos_bound; lia). apply IH.
Qed.
Lemma le_bytes_firstn : forall r n v, (r <= n)%nat -> firstn r (le_bytes n v) = le_bytes r v.
Proof.
  induction r as [|r IH]; intros [|n] v H; cbn [le_bytes firstn]; auto; [lia|]. f_equal. apply IH. lia.
Qed.
Lemma skipn_rev_firstn : forall A (l : list A) r, (r <= length l)%nat -> skipn (length l - r) (rev l) = rev (firstn r l).
Proof. intros. rewrite <- (firstn_skipn r l) at 2. rewrite rev_app_distr, skipn_app.
  replace (length l - r)%nat with (length (rev (skipn r l))) at 1 by (rewrite rev_length, skipn_length; auto).
  rewrite skipn_all, rev_length, skipn_length, Nat.sub_diag. auto. Qed.

Section Facts.
Context {c : cfg}.

Lemma to_le_trunc : forall r v, 0 <= r <= LB -> firstn (Z.to_nat r) (to_le_bytes (v mod 256 ^ r)) = firstn (Z.to_nat r) (to_le_bytes v).
Proof.
  intros r v H. unfold to_le_bytes. rewrite !le_bytes_firstn by lia.
  rewrite <- (le_bytes_mod (Z.to_nat r) v). rewrite Z2Nat.id by lia. auto.
Qed.
Lemma to_be_trunc : forall r v, 0 <= r <= LB ->
  skipn (Z.to_nat (LB - r)) (to_be_bytes (v mod 256 ^ r)) = skipn (Z.to_nat (LB - r)) (to_be_bytes v).
Proof.
  intros r v H. unfold to_be_bytes.
  assert (L : forall v, length (to_le_bytes v) = Z.to_nat LB) by (intros; apply le_bytes_length).
  replace (Z.to_nat (LB - r)) with (length (to_le_bytes v) - Z.to_nat r)%nat by (rewrite L; lia).
  rewrite (skipn_rev_firstn _ (to_le_bytes v)) by (rewrite L; lia). rewrite <- to_le_trunc by lia.
  rewrite L, <- (L (v mod 256 ^ r)). apply skipn_rev_firstn. rewrite L. lia.
Qed.

(** Without debug assertions, what does not fit the buffer's last limb is cut off. *)
Lemma wp_store_cut : forall b i v (Q : mp -> Prop), debug c = false -> mp_ok b -> 0 <= i < nlimbs b -> isl v ->
  (forall b', store_post b i (v mod lim b i) b' -> Q b') -> wp (store_l b i v) Q.
Proof.
  intros b i v Q D Hb Hi Hv HQ. pose proof LB_pos as LP. pose proof (lim_pos b i Hi) as LM.
  assert (I0 : 0 <= i * LB) by (apply mul_nn; lia).
  assert (HL : i * LB < mp_len b) by (apply nlimbs_lt; lia).
  destruct (Z.lt_ge_cases v (lim b i)) as [F|F].
  { apply wp_store; auto; [unfold isl in Hv; lia|]. intros b' SP. apply HQ. rewrite Z.mod_small by (unfold isl in Hv; lia). auto. }
  assert (PL : mp_len b - i * LB < LB).
  { destruct (Z.lt_ge_cases (mp_len b - i * LB) LB); auto. unfold lim in F. rewrite Z.min_l in F by lia. rewrite <- B_256 in F. unfold isl in Hv. lia. }
  assert (LE0 : lim b i = 256 ^ (mp_len b - i * LB)) by (unfold lim; rewrite Z.min_r by lia; auto).
  pose proof (Z.mod_pos_bound v (lim b i) (proj1 LM)) as MB.
  unfold store_l. apply wp_bind, wp_tick. destruct b as [l|l|l]; cbn [mp_len] in *.
  - unfold be_mp_store_l. apply wp_bind, wp_bind, wp_dassert; [apply Z.leb_le; lia|].
    apply wp_bind, wp_usub; [lia|]. apply wp_mif; intros E; [apply Z.leb_le in E; lia|].
    apply wp_bind. unfold dassert_m. rewrite D. apply wp_ret.
    unfold _be_mp_store_l_high_partial. apply wp_bind, wp_slice; [lia|lia|].
    apply wp_bind, wp_usub; [lia|]. apply wp_bind, wp_slice; [lia| unfold to_be_bytes; rewrite zlen_rev, to_le_len; lia |].
    apply wp_ret, wp_ret, HQ.
    replace (splice l 0) with (splice l (zlen l - i * LB - (zlen l - i * LB))) by (f_equal; lia).
    rewrite <- to_be_trunc by lia. rewrite <- LE0.
    replace (LB - (LB - (zlen l - i * LB))) with (zlen l - i * LB) by lia.
    apply be_store_post; auto; try lia.
  - unfold le_mp_store_l. apply wp_bind, wp_bind, wp_dassert; [apply Z.ltb_lt; lia|].
    apply wp_mif; intros E; [apply Z.leb_le in E; lia|].
    apply wp_bind. unfold dassert_m. rewrite D. apply wp_ret.
    unfold _le_mp_store_l_high_partial. apply wp_bind, wp_slice; [lia|lia|].
    apply wp_bind, wp_usub; [lia|]. apply wp_bind, wp_slice; [lia|rewrite to_le_len; lia|].
    apply wp_ret, wp_ret, HQ. rewrite Z.sub_0_r. cbn [skipn Z.to_nat].
    rewrite <- to_le_trunc by lia. rewrite <- LE0.
    apply le_store_post; auto; try lia.
  - exfalso. rewrite nlimbs_NE in Hi. assert ((i + 1) * LB <= zlen l * LB) by (apply Z.mul_le_mono_nonneg_r; lia). lia.
Qed.

(** With them, it panics. *)
Lemma store_big_pan : forall b i v, debug c = true -> mp_ok b -> 0 <= i < nlimbs b -> isl v -> lim b i <= v -> panics (store_l b i v).
Proof.
  intros b i v D Hb Hi Hv F. pose proof LB_pos as LP. pose proof (lim_pos b i Hi) as LM.
  assert (I0 : 0 <= i * LB) by (apply mul_nn; lia).
  assert (HL : i * LB < mp_len b) by (apply nlimbs_lt; lia).
  assert (PL : mp_len b - i * LB < LB).
  { destruct (Z.lt_ge_cases (mp_len b - i * LB) LB); auto. unfold lim in F. rewrite Z.min_l in F by lia. rewrite <- B_256 in F. unfold isl in Hv. lia. }
  assert (LE0 : lim b i = 256 ^ (mp_len b - i * LB)) by (unfold lim; rewrite Z.min_r by lia; auto).
  rewrite LE0 in F. assert (NZ : (v / 2 ^ (8 * (mp_len b - i * LB)) =? 0) = false).
  { apply Z.eqb_neq. rewrite <- pow256 by lia. pose proof (Z.div_le_mono (256 ^ (mp_len b - i * LB)) v (256 ^ (mp_len b - i * LB))).
    pose proof (p256_pos (mp_len b - i * LB)). rewrite Z.div_same in * by lia. lia. }
  assert (PAN : panics (dassert_m (let! h := lshr v (8 * (mp_len b - i * LB)) in ret (h =? 0)))).
  { unfold dassert_m. rewrite D. apply pan_wp, wp_bind, wp_lshr; [unfold W; lia|]. apply wp_ret. rewrite NZ. apply pan_panic. }
  unfold store_l. apply pan_any. intros [] _. destruct b as [l|l|l]; cbn [mp_len] in *.
  - apply pan_l. unfold be_mp_store_l. apply pan_any. intros [] _. apply pan_wp, wp_usub; [lia|].
    apply pan_mif; intros E; [apply Z.leb_le in E; lia|]. apply pan_l. exact PAN.
  - apply pan_l. unfold le_mp_store_l. apply pan_any. intros [] _.
    apply pan_mif; intros E; [apply Z.leb_le in E; lia|]. apply pan_l.
    unfold dassert_m. rewrite D. apply pan_wp, wp_bind, wp_usub; [lia|]. apply wp_bind, wp_lshr; [unfold W; lia|]. apply wp_ret. rewrite NZ. apply pan_panic.
  - exfalso. rewrite nlimbs_NE in Hi. assert ((i + 1) * LB <= zlen l * LB) by (apply Z.mul_le_mono_nonneg_r; lia). lia.
Qed.
End Facts.
