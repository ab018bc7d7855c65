(** Proofs about limb accesses with arbitrary indices (C58). *)
From Coq Require Import ZArith List Bool Lia.
Require Import Verif.Spec Verif.Monad Verif.Base Verif.Wp Verif.Pan Verif.ModelLimb Verif.LimbFacts Verif.LimbFacts2
  Verif.ModelBuf Verif.SpecBuf Verif.BufFacts Verif.BufFacts2 Verif.BufProofs Verif.ModelAccess Verif.SpecAccess Verif.AccessFacts.
Import ListNotations.
Open Scope Z_scope.

Section Facts.
Context {c : cfg}.

(** The offset of a limb in a byte buffer. *)
Lemma offset_cases : forall i, 0 <= i ->
  let j := if debug c then i else i mod (2 ^ UW / LB) in
  (debug c = true /\ 2 ^ UW <= j * LB /\ panics (umul i LB)) \/
  (umul i LB = ret (j * LB) /\ 0 <= j /\ j * LB < 2 ^ UW).
Proof.
  intros i Hi. pose proof LB_pos. destruct (debug c) eqn:D; cbv zeta.
  - destruct (Z_lt_le_dec (i * LB) (2 ^ UW)) as [L|L].
    + right. destruct (umul_reached i Hi (fun _ => L)) as (E & H1 & H2).
      assert (i mod (2 ^ UW / LB) = i) as M.
      { apply Z.mod_small. split; [lia|]. pose proof UW_LB as X. set (K := 2 ^ UW / LB) in *. nia. }
      rewrite M in *. auto.
    + left. split; auto. split; auto. apply umul_pan; auto.
  - right. apply umul_reached; auto. congruence.
Qed.

Lemma lex_bytes : forall b j, kind_of b = KBE -> limb_exists b j = (j * LB <=? mp_len b).
Proof.
  intros b j E. unfold limb_exists. rewrite E, andb_true_r. destruct (Z.ltb_spec (j * LB) (mp_len b)), (Z.eqb_spec (j * LB) (mp_len b)), (Z.leb_spec (j * LB) (mp_len b));
  cbn; auto; lia.
Qed.
Lemma mp_ok_len : forall b, mp_ok b -> mp_len b < 2 ^ UW.
Proof. intros b [_ H]. assert (0 <= mp_len b) by (pose proof LB_pos; destruct b as [l|l|l]; cbn [mp_len]; pose proof (zlen_nonneg _ l); nia). lia. Qed.
Lemma far_ex : forall b j, mp_ok b -> 2 ^ UW <= j * LB -> limb_exists b j = false.
Proof.
  intros b j H HL. pose proof (mp_ok_len b H). unfold limb_exists.
  destruct (Z.ltb_spec (j * LB) (mp_len b)); [lia|]. destruct (Z.eqb_spec (j * LB) (mp_len b)); [lia|]. reflexivity.
Qed.
Lemma far_full : forall b j, mp_ok b -> 2 ^ UW <= j * LB -> limb_exists_full b j = false.
Proof. intros b j H HL. pose proof (mp_ok_len b H). pose proof LB_pos. unfold limb_exists_full. apply Z.leb_gt. lia. Qed.

Lemma pan_zupd : forall l i v, zlen l <= i -> panics (zupd l i v).
Proof. intros l i v H. unfold zupd. destruct (i <? zlen l) eqn:E; [apply Z.ltb_lt in E; lia|]. rewrite andb_false_r. apply pan_panic. Qed.

Lemma ne_ex : forall l j, limb_exists (NE l) j = (j <? zlen l).
Proof.
  intros l j. pose proof LB_pos. unfold limb_exists. cbn [kind_of mp_len]. rewrite andb_false_r, orb_false_r.
  destruct (Z.ltb_spec (j * LB) (zlen l * LB)), (Z.ltb_spec j (zlen l)); auto; nia.
Qed.
Lemma ne_ex_full : forall l j, limb_exists_full (NE l) j = (j <? zlen l).
Proof.
  intros l j. pose proof LB_pos. unfold limb_exists_full. cbn [mp_len].
  destruct (Z.leb_spec ((j + 1) * LB) (zlen l * LB)), (Z.ltb_spec j (zlen l)); auto; nia.
Qed.

Definition acc {A} (e : bool) (m : M A) (P : A -> Prop) : Prop := if e then wp m P else panics m.
Lemma acc_tick : forall A e v (m : M A) P, acc e m P -> acc e (tick v ;; m) P.
Proof. intros A [] v m P H; unfold acc in *; [apply wp_bind, wp_tick; auto|apply tick_pan; auto]. Qed.
Lemma acc_map : forall A C e (m : M A) (f : A -> C) (P : C -> Prop), acc e m (fun a => P (f a)) -> acc e (let! x := m in ret (f x)) P.
Proof. intros A C [] m f P H; unfold acc in *; [apply wp_bind; eapply wp_mono; [exact H|]; intros; apply wp_ret; auto|apply pan_l; auto]. Qed.
Lemma acc_umul : forall A b i (body : Z -> M A) P (ex : mp -> Z -> bool), mp_ok b -> 0 <= i -> kind_of b <> KNE ->
  (forall j, 2 ^ UW <= j * LB -> ex b j = false) ->
  (forall j, 0 <= j -> j * LB < 2 ^ UW -> j = index_used b i -> acc (ex b j) (body (j * LB)) P) ->
  acc (ex b (index_used b i)) (let! o := umul i LB in body o) P.
Proof.
  intros A b i body P ex Hb Hi Hk Hfar H.
  assert (index_used b i = if debug c then i else i mod (2 ^ UW / LB)) as E by (unfold index_used; destruct (kind_of b); congruence).
  destruct (offset_cases i Hi) as [(_ & H2 & H3)|(H1 & H2 & H3)]; rewrite <- E in *.
  - rewrite Hfar by auto. cbn. apply pan_l; auto.
  - rewrite H1, ret_bind. apply H; auto.
Qed.

Lemma load_acc : forall b i, mp_ok b -> 0 <= i -> let j := index_used b i in
  acc (limb_exists b j) (load_l_usize b i) (fun v => v = limb_at b j).
Proof.
  intros b i Hb Hi. cbv zeta. pose proof LB_pos. unfold load_l_usize. apply acc_tick. pose proof (far_ex b) as HF. destruct b as [l|l|l].
  - apply (acc_umul _ (BE l) i (be_body l)); auto; [discriminate|]. intros j H0 H1 <-. rewrite lex_bytes by reflexivity. cbn [mp_len].
    destruct (Z.leb_spec (j * LB) (zlen l)); unfold acc; [apply be_body_in; auto; apply Hb|apply be_body_out; auto].
  - apply (acc_umul _ (LE l) i (le_body l)); auto; [discriminate|]. intros j H0 H1 <-. unfold limb_exists. cbn [mp_len kind_of].
    destruct Hb as [Hd HU]. cbn [mp_len] in HU.
    destruct (Z.ltb_spec (j * LB) (zlen l)); cbn [orb andb].
    + apply le_body_in; auto; lia.
    + destruct (Z.eqb_spec (j * LB) (zlen l)); cbn [andb].
      * destruct (debug c) eqn:D; unfold negb, acc; [apply le_body_out; auto|apply le_body_in; auto; try lia; congruence].
      * unfold acc. apply le_body_out; auto; lia.
  - cbn [index_used kind_of]. rewrite ne_ex. destruct (Z.ltb_spec i (zlen l)); unfold acc; [|apply pan_znth; auto].
    apply wp_znth; [lia|]. destruct Hb as [Hd _]. apply nth_val; auto; first [apply B_pos|lia].
Qed.

Lemma load_full_acc : forall b i, mp_ok b -> 0 <= i -> let j := index_used b i in
  acc (limb_exists_full b j) (load_l_full_usize b i) (fun v => v = limb_at b j).
Proof.
  intros b i Hb Hi. cbv zeta. pose proof LB_pos. unfold load_l_full_usize. apply acc_tick. pose proof (far_full b) as HF. destruct b as [l|l|l].
  - apply (acc_umul _ (BE l) i (be_fbody l)); auto; [discriminate|]. intros j H0 H1 <-. unfold limb_exists_full. cbn [mp_len].
    destruct Hb as [Hd HU]. cbn [mp_len] in HU.
    destruct (Z.leb_spec ((j + 1) * LB) (zlen l)); unfold acc; [apply be_fbody_in; auto|apply be_fbody_out; auto].
  - apply (acc_umul _ (LE l) i (le_fbody l)); auto; [discriminate|]. intros j H0 H1 <-. unfold limb_exists_full. cbn [mp_len].
    destruct Hb as [Hd HU]. cbn [mp_len] in HU.
    destruct (Z.leb_spec ((j + 1) * LB) (zlen l)); unfold acc; [apply le_fbody_in; auto|apply le_fbody_out; auto].
  - cbn [index_used kind_of]. rewrite ne_ex_full. destruct (Z.ltb_spec i (zlen l)); unfold acc; [|apply pan_znth; auto].
    apply wp_znth; [lia|]. destruct Hb as [Hd _]. apply nth_val; auto; first [apply B_pos|lia].
Qed.

Definition storable (b : mp) (v j : Z) : bool := limb_exists b j && negb (debug c && (limb_room b j <=? v)).
Lemma ne_room : forall l j, 0 <= j < zlen l -> limb_room (NE l) j = B.
Proof. intros l j H. pose proof LB_pos. apply room_full. cbn [mp_len]. nia. Qed.
Lemma storable_in : forall b v j, storable b v j = true -> limb_exists b j = true /\ (debug c = true -> v < limb_room b j).
Proof.
  intros b v j H. apply andb_true_iff in H. destruct H as [H1 H2]. split; auto. intros D. rewrite D in H2. cbn in H2.
  apply negb_true_iff, Z.leb_gt in H2. auto.
Qed.
Lemma storable_out : forall b v j, storable b v j = false -> limb_exists b j = false \/ limb_exists b j = true /\ debug c = true /\ limb_room b j <= v.
Proof.
  intros b v j H. unfold storable in H. destruct (limb_exists b j); [right|left; auto]. cbn in H. apply negb_false_iff, andb_true_iff in H.
  destruct H as [H1 H2]. apply Z.leb_le in H2. auto.
Qed.
Lemma lex_le : forall l j, limb_exists (LE l) j = true -> j * LB <= zlen l /\ (debug c = true -> j * LB < zlen l).
Proof.
  intros l j H. unfold limb_exists in H. cbn [kind_of mp_len] in H. apply orb_true_iff in H. destruct H as [H|H]; [apply Z.ltb_lt in H; lia|].
  apply andb_true_iff in H. destruct H as [H1 H2]. apply Z.eqb_eq in H1. split; [lia|]. intros D. rewrite D in H2. discriminate.
Qed.
Lemma lex_le_not : forall l j, limb_exists (LE l) j = false -> zlen l <= j * LB /\ (zlen l < j * LB \/ debug c = true).
Proof.
  intros l j H. unfold limb_exists in H. cbn [kind_of mp_len] in H. apply orb_false_iff in H. destruct H as [H1 H2]. apply Z.ltb_ge in H1.
  split; auto. apply andb_false_iff in H2. destruct H2 as [H2|H2]; [apply Z.eqb_neq in H2; lia|]. right. destruct (debug c); auto; discriminate.
Qed.

Lemma store_acc : forall b i v, mp_ok b -> 0 <= i -> isl v -> let j := index_used b i in
  acc (storable b v j) (store_l_usize b i v) (fun b' => becomes b b' (mpval b + (v mod limb_room b j - limb_at b j) * B ^ j)).
Proof.
  intros b i v Hb Hi Hv. cbv zeta. pose proof LB_pos. unfold store_l_usize. apply acc_tick. pose proof (far_ex b) as HF.
  assert (forall j, 2 ^ UW <= j * LB -> storable b v j = false) as HF' by (intros j Hj; unfold storable; rewrite HF; auto).
  destruct b as [l|l|l].
  - apply acc_map. apply (acc_umul _ (BE l) i (fun o => be_sbody l o v) _ (fun b j => storable b v j)); auto; [discriminate|]. intros j H0 H1 <-.
    destruct (storable (BE l) v j) eqn:E.
    + apply storable_in in E. destruct E as [E1 E2]. rewrite lex_bytes in E1 by reflexivity. apply Z.leb_le in E1. apply be_sbody_in; auto.
    + apply storable_out in E. destruct E as [E|(E1 & E2 & E3)]; rewrite lex_bytes in * by reflexivity.
      * apply Z.leb_gt in E. apply be_sbody_out; auto.
      * apply Z.leb_le in E1. apply be_sbody_big; auto.
  - apply acc_map. apply (acc_umul _ (LE l) i (fun o => le_sbody l o v) _ (fun b j => storable b v j)); auto; [discriminate|]. intros j H0 H1 <-.
    destruct (storable (LE l) v j) eqn:E.
    + apply storable_in in E. destruct E as [E1 E2]. apply lex_le in E1. destruct E1. apply le_sbody_in; auto.
    + apply storable_out in E. destruct E as [E|(E1 & E2 & E3)].
      * apply lex_le_not in E. destruct E. apply le_sbody_out; auto.
      * apply lex_le in E1. destruct E1. apply le_sbody_big; auto.
  - cbn [index_used kind_of]. apply acc_map. unfold storable. rewrite ne_ex. destruct (Z.ltb_spec i (zlen l)).
    + rewrite ne_room by lia. replace (B <=? v) with false by (symmetry; apply Z.leb_gt; apply Hv). rewrite andb_false_r.
      unfold andb, negb, acc. apply wp_zupd; [lia|]. rewrite Z.mod_small by exact Hv. apply ne_store_post; auto.
    + unfold acc. apply pan_zupd; auto.
Qed.

Lemma store_full_acc : forall b i v, mp_ok b -> 0 <= i -> isl v -> let j := index_used b i in
  acc (limb_exists_full b j) (store_l_full_usize b i v) (fun b' => becomes b b' (mpval b + (v - limb_at b j) * B ^ j)).
Proof.
  intros b i v Hb Hi Hv. cbv zeta. pose proof LB_pos. unfold store_l_full_usize. apply acc_tick. pose proof (far_full b) as HF.
  destruct b as [l|l|l].
  - apply acc_map. apply (acc_umul _ (BE l) i (fun o => be_sfbody l o v)); auto; [discriminate|]. intros j H0 H1 <-. unfold limb_exists_full. cbn [mp_len].
    assert (16 * zlen l < 2 ^ UW) by apply Hb.
    destruct (Z.leb_spec ((j + 1) * LB) (zlen l)); [apply be_sfbody_in; auto|apply be_sfbody_out; auto].
  - apply acc_map. apply (acc_umul _ (LE l) i (fun o => le_sfbody l o v)); auto; [discriminate|]. intros j H0 H1 <-. unfold limb_exists_full. cbn [mp_len].
    destruct (Z.leb_spec ((j + 1) * LB) (zlen l)); [apply le_sfbody_in; auto|apply le_sfbody_out; auto].
  - cbn [index_used kind_of]. apply acc_map. rewrite ne_ex_full. destruct (Z.ltb_spec i (zlen l)).
    + unfold acc. apply wp_zupd; [lia|]. apply ne_store_post; auto.
    + unfold acc. apply pan_zupd; auto.
Qed.

(** For offsets within the range of usize, the functions of ModelBuf.v do the same. *)
Lemma umul_small : forall i, 0 <= i -> (i + 1) * LB < 2 ^ UW -> umul i LB = ret (i * LB).
Proof. intros i H0 H1. pose proof LB_pos. unfold umul, ovf. replace (i * LB <? 2 ^ UW) with true by (symmetry; apply Z.ltb_lt; lia).
  replace (0 <=? i * LB) with true by (symmetry; apply Z.leb_le, mul_nn; lia). reflexivity. Qed.
End Facts.

Lemma small_index_same : forall (c : cfg) b i v, 0 <= i -> (i + 1) * LB < 2 ^ UW ->
  load_l_usize b i = load_l b i /\ load_l_full_usize b i = load_l_full b i /\
  store_l_usize b i v = store_l b i v /\ store_l_full_usize b i v = store_l_full b i v.
Proof.
  intros c b i v Hi HU. pose proof LB_pos. assert (0 <= i * LB) by (apply mul_nn; lia).
  unfold load_l_usize, load_l_full_usize, store_l_usize, store_l_full_usize, load_l, load_l_full, store_l, store_l_full.
  destruct b as [l|l|l]; [| |auto].
  - unfold be_load_l_usize, be_load_l_full_usize, be_store_l_usize, be_store_l_full_usize.
    rewrite !umul_small by auto. rewrite !ret_bind. auto.
  - unfold le_load_l_usize, le_load_l_full_usize, le_store_l_usize, le_store_l_full_usize.
    rewrite !umul_small by auto. rewrite !ret_bind. rewrite !le_full_eq, !le_sfull_eq by lia. rewrite uadd_ret by lia. rewrite !ret_bind. auto.
Qed.

Lemma load_any : forall (c : cfg) b i, mp_ok b -> 0 <= i -> let j := index_used b i in
  if limb_exists b j then returns (load_l_usize b i) (limb_at b j) else panics (load_l_usize b i).
Proof.
  intros c b i Hb Hi. pose proof (load_acc b i Hb Hi) as H. cbv zeta in *. destruct (limb_exists b _); cbn in H; auto.
  apply wp_returns in H. destruct H as (a & H & ->). exact H.
Qed.
Lemma load_full_any : forall (c : cfg) b i, mp_ok b -> 0 <= i -> let j := index_used b i in
  if limb_exists_full b j then returns (load_l_full_usize b i) (limb_at b j) else panics (load_l_full_usize b i).
Proof.
  intros c b i Hb Hi. pose proof (load_full_acc b i Hb Hi) as H. cbv zeta in *. destruct (limb_exists_full b _); cbn in H; auto.
  apply wp_returns in H. destruct H as (a & H & ->). exact H.
Qed.
Lemma store_any : forall (c : cfg) b i v, mp_ok b -> 0 <= i -> 0 <= v < B -> let j := index_used b i in
  if limb_exists b j && negb (debug c && (limb_room b j <=? v))
  then yields (store_l_usize b i v) (fun b' => becomes b b' (mpval b + (v mod limb_room b j - limb_at b j) * B ^ j))
  else panics (store_l_usize b i v).
Proof.
  intros c b i v Hb Hi Hv. pose proof (store_acc b i v Hb Hi Hv) as H. cbv zeta in *. unfold storable in H.
  destruct (_ && _); cbn in H; auto. apply wp_yields. exact H.
Qed.
Lemma store_full_any : forall (c : cfg) b i v, mp_ok b -> 0 <= i -> 0 <= v < B -> let j := index_used b i in
  if limb_exists_full b j then yields (store_l_full_usize b i v) (fun b' => becomes b b' (mpval b + (v - limb_at b j) * B ^ j))
  else panics (store_l_full_usize b i v).
Proof.
  intros c b i v Hb Hi Hv. pose proof (store_full_acc b i v Hb Hi Hv) as H. cbv zeta in *.
  destruct (limb_exists_full b _); cbn in H; auto. apply wp_yields. exact H.
Qed.

Lemma debug_past_end : forall (c : cfg) b i v, debug c = true -> mp_ok b -> 0 <= i -> 0 <= v < B -> mp_len b <= i * LB ->
  panics (load_l_full_usize b i) /\ panics (store_l_full_usize b i v) /\
  (kind_of b <> KBE \/ mp_len b < i * LB -> panics (load_l_usize b i) /\ panics (store_l_usize b i v)) /\
  (kind_of b = KBE -> mp_len b = i * LB ->
   returns (load_l_usize b i) 0 /\ (v = 0 -> yields (store_l_usize b i v) (fun b' => becomes b b' (mpval b))) /\
   (v <> 0 -> panics (store_l_usize b i v))).
Proof.
  intros c b i v D Hb Hi Hv HL. pose proof LB_pos.
  pose proof (load_any c b i Hb Hi) as H1. pose proof (load_full_any c b i Hb Hi) as H2.
  pose proof (store_any c b i v Hb Hi Hv) as H3. pose proof (store_full_any c b i v Hb Hi Hv) as H4. cbv zeta in *.
  assert (index_used b i = i) as E by (unfold index_used; rewrite D; destruct (kind_of b); auto). rewrite E in *. clear E.
  assert (limb_exists_full b i = false) as E by (unfold limb_exists_full; apply Z.leb_gt; lia). rewrite E in *. clear E.
  split; [exact H2|]. split; [exact H4|]. split.
  - intros HK. assert (limb_exists b i = false) as E.
    { unfold limb_exists. rewrite D. replace (i * LB <? mp_len b) with false by (symmetry; apply Z.ltb_ge; lia).
      destruct (Z.eqb_spec (i * LB) (mp_len b)); [|reflexivity]. destruct (kind_of b); auto. destruct HK; [congruence|lia]. }
    rewrite E in *. auto.
  - intros HK HE. assert (limb_exists b i = true) as E by (rewrite lex_bytes by auto; apply Z.leb_le; lia). rewrite E, D in *. clear E.
    assert (limb_room b i = 1) as R. { unfold limb_room. rewrite <- HE. rewrite Z.sub_diag, Z.min_r by lia. reflexivity. }
    assert (limb_at b i = 0) as Z0.
    { unfold limb_at. rewrite (Z.div_small (mpval b)); [apply Z.mod_0_l; pose proof B_pos; lia|]. rewrite Bpow256, <- HE by auto. apply mpval_bound; auto. }
    rewrite R, Z0 in *. split; [exact H1|]. split.
    + intros ->. cbn [andb negb Z.leb Z.compare] in H3. rewrite Z.mod_0_l in H3 by lia.
      replace (mpval b + (0 - 0) * B ^ i) with (mpval b) in H3 by ring. exact H3.
    + intros Hn. replace (1 <=? v) with true in H3 by (symmetry; apply Z.leb_le; lia). exact H3.
Qed.
