(** Views between limbs and bytes. *)
From Coq Require Import ZArith List Lia.
Require Import Verif.Base Verif.Spec Verif.Monad Verif.ModelLimb Verif.ModelBuf Verif.SpecBuf Verif.Wp Verif.LimbFacts Verif.BufFacts Verif.BufProofs Verif.Pan Verif.BufFacts2 Verif.ModelView.
Import ListNotations.
Open Scope Z_scope.

Section View.
Context {c : cfg}.

Lemma limb_bytes_len : forall (be : bool) v, zlen (if be then to_be_bytes v else to_le_bytes v) = LB.
Proof. intros [|] v; unfold to_be_bytes; rewrite ?zlen_rev; apply to_le_len. Qed.
Lemma digits_ok_rev : forall b l, digits_ok b l -> digits_ok b (rev l).
Proof. intros b l H. apply Forall_rev. exact H. Qed.
Lemma limb_bytes_ok : forall (be : bool) v, digits_ok 256 (if be then to_be_bytes v else to_le_bytes v).
Proof. intros [|] v; [apply digits_ok_rev|]; apply to_le_ok. Qed.
Lemma view_len : forall be l, zlen (limb_slice_as_bytes be l) = LB * zlen l.
Proof.
  intros be l. unfold limb_slice_as_bytes. induction l as [|v l IH]; cbn [flat_map].
  - unfold zlen. cbn. lia.
  - rewrite zlen_app, IH, limb_bytes_len. unfold zlen. cbn [length]. lia.
Qed.
Lemma view_ok : forall be l, digits_ok 256 (limb_slice_as_bytes be l).
Proof.
  intros be l. unfold limb_slice_as_bytes. induction l as [|v l IH]; cbn [flat_map]; [constructor|].
  apply Forall_app. split; [apply limb_bytes_ok|exact IH].
Qed.
Lemma view_val : forall l, digits_ok B l -> digits_val 256 (limb_slice_as_bytes false l) = digits_val B l.
Proof.
  intros l. unfold limb_slice_as_bytes. induction l as [|v l IH]; intros H; cbn [flat_map digits_val]; auto.
  inversion H; subst. rewrite digits_val_app, to_le_len, to_le_val, IH by auto. rewrite Z.mod_small, <- B_256' by auto. auto.
Qed.
Lemma view_rev : forall l, rev (limb_slice_as_bytes true (rev l)) = limb_slice_as_bytes false l.
Proof.
  intros l. unfold limb_slice_as_bytes. induction l as [|v l IH]; cbn [flat_map rev]; auto.
  rewrite flat_map_app, rev_app_distr, IH. cbn [flat_map]. unfold to_be_bytes. rewrite app_nil_r, rev_involutive. auto.
Qed.

Lemma view_le_ok : forall l, mp_ok (NE l) ->
  let b := LE (limb_slice_as_bytes false l) in mp_ok b /\ mp_len b = mp_len (NE l) /\ mpval b = mpval (NE l).
Proof.
  intros l [H1 H2] b. unfold b. cbn [mp_len mpval] in *. rewrite view_len, (Z.mul_comm LB). split; [split|split]; auto.
  - apply view_ok.
  - cbn [mp_len]. rewrite view_len, (Z.mul_comm LB). auto.
  - unfold le_val. apply view_val. exact H1.
Qed.
Lemma view_be_ok : forall l, mp_ok (NE l) ->
  let b := BE (limb_slice_as_bytes true (rev l)) in mp_ok b /\ mp_len b = mp_len (NE l) /\ mpval b = mpval (NE l).
Proof.
  intros l [H1 H2] b. unfold b. cbn [mp_len mpval] in *. rewrite view_len, zlen_rev, (Z.mul_comm LB). split; [split|split]; auto.
  - apply view_ok.
  - cbn [mp_len]. rewrite view_len, zlen_rev, (Z.mul_comm LB). auto.
  - unfold be_val. rewrite view_rev. apply view_val. exact H1.
Qed.

Lemma firstn_len_app : forall A (l l' : list A) n, Z.of_nat n = zlen l -> firstn n (l ++ l') = l /\ skipn n (l ++ l') = l'.
Proof.
  intros A l l' n H. assert (n = length l) as -> by (unfold zlen in H; lia).
  rewrite firstn_app, skipn_app, Nat.sub_diag, firstn_all, skipn_all. cbn. rewrite app_nil_r. auto.
Qed.
Lemma in_bytes_view : forall be l, digits_ok B l -> limbs_in_bytes be (length l) (limb_slice_as_bytes be l) = l.
Proof.
  intros be l. unfold limb_slice_as_bytes. induction l as [|v l IH]; intros H; cbn [length limbs_in_bytes flat_map]; auto.
  inversion H; subst. destruct (firstn_len_app _ (if be then to_be_bytes v else to_le_bytes v)
    (flat_map (fun v => if be then to_be_bytes v else to_le_bytes v) l) (Z.to_nat LB)) as [-> ->].
  { rewrite limb_bytes_len. pose proof LB_pos. lia. }
  rewrite IH by auto. f_equal. destruct be; unfold be_val, to_be_bytes, le_val; rewrite ?rev_involutive, to_le_val, Z.mod_small; auto.
Qed.
Lemma chunk_bytes : forall (be : bool) l, digits_ok 256 l -> zlen l = LB ->
  let v := if be then be_val l else le_val l in 0 <= v < B /\ (if be then to_be_bytes v else to_le_bytes v) = l.
Proof.
  intros be l H L. assert (X : forall l, digits_ok 256 l -> zlen l = LB -> 0 <= le_val l < B /\ to_le_bytes (le_val l) = l).
  { clear. intros l H L. pose proof (digits_val_bound 256 l ltac:(lia) H) as BD. rewrite L, <- B_256' in BD. fold (le_val l) in BD.
    split; auto. apply (digits_inj 256); auto; [lia|apply to_le_ok|pose proof (to_le_len (le_val l)); unfold zlen in *; lia|].
    rewrite to_le_val, Z.mod_small; auto. }
  destruct be; cbv zeta.
  - destruct (X (rev l)) as [X1 X2]; [apply digits_ok_rev; auto|rewrite zlen_rev; auto|].
    unfold be_val, to_be_bytes. unfold le_val in X1, X2. split; auto. rewrite X2, rev_involutive. auto.
  - apply X; auto.
Qed.
Lemma view_in_bytes : forall be n l, digits_ok 256 l -> zlen l = LB * Z.of_nat n ->
  digits_ok B (limbs_in_bytes be n l) /\ length (limbs_in_bytes be n l) = n /\ limb_slice_as_bytes be (limbs_in_bytes be n l) = l.
Proof.
  intros be n. unfold limb_slice_as_bytes. pose proof LB_pos as LP. induction n as [|n IH]; intros l H L; cbn [limbs_in_bytes length flat_map].
  - split; [constructor|]. split; auto. destruct l; auto. unfold zlen in L. cbn [length] in L. lia.
  - assert (E1 : zlen (firstn (Z.to_nat LB) l) = LB).
    { unfold zlen in *. rewrite firstn_length. nia. }
    assert (E2 : zlen (skipn (Z.to_nat LB) l) = LB * Z.of_nat n).
    { unfold zlen in *. rewrite skipn_length. nia. }
    assert (E3 : digits_ok 256 (firstn (Z.to_nat LB) l) /\ digits_ok 256 (skipn (Z.to_nat LB) l)).
    { apply Forall_app. rewrite firstn_skipn. exact H. }
    destruct E3 as [E3 E4]. destruct (chunk_bytes be _ E3 E1) as [C1 C2]. cbv zeta in C1, C2.
    destruct (IH _ E4 E2) as (I1 & I2 & I3). split; [constructor; auto|]. split; [f_equal; auto|].
    rewrite I3. transitivity (firstn (Z.to_nat LB) l ++ skipn (Z.to_nat LB) l); [f_equal; exact C2|apply firstn_skipn].
Qed.

Lemma view_read : forall be l, mp_ok (NE l) -> limb_slice_as_bytes_mut be l (fun bytes => bytes) = l.
Proof. intros be l [H _]. apply in_bytes_view. exact H. Qed.
Lemma view_write : forall be l bytes, mp_ok (NE l) -> digits_ok 256 bytes -> zlen bytes = zlen (limb_slice_as_bytes be l) ->
  let l' := limb_slice_as_bytes_mut be l (fun _ => bytes) in
  mp_ok (NE l') /\ zlen l' = zlen l /\ limb_slice_as_bytes be l' = bytes /\ (be = false -> mpval (NE l') = mpval (LE bytes)).
Proof.
  intros be l bytes [H H0] Hb L l'. unfold l', limb_slice_as_bytes_mut. rewrite view_len in L.
  destruct (view_in_bytes be (length l) bytes Hb L) as (I1 & I2 & I3).
  assert (L' : zlen (limbs_in_bytes be (length l) bytes) = zlen l) by (unfold zlen; rewrite I2; auto).
  split; [split; [exact I1|]|]. { cbn [mp_len] in *. rewrite L'. exact H0. }
  split; auto. split; auto. intros ->. cbn [mpval]. unfold le_val. rewrite <- I3 at 2. symmetry. apply view_val. exact I1.
Qed.
Lemma nlimbs_tail : forall x (Q : Z -> Prop), 0 <= x < 2 ^ UW -> Q (x / LB) ->
  wp (let! nbytes := umul (x / LB) LB in ret (nbytes / LB + (if negb (nbytes mod LB =? 0) then 1 else 0))) Q.
Proof.
  intros x Q H HQ. pose proof LB_pos as LP. pose proof (Z.div_mod x LB). pose proof (Z.mod_pos_bound x LB LP). pose proof (Z.div_pos x LB).
  apply wp_bind. unfold umul. apply wp_ovf; [nia|]. apply wp_ret. rewrite Z.mod_mul, Z.div_mul by lia. cbn. rewrite Z.add_0_r. auto.
Qed.
Lemma nlimbs_for_len_ok : forall n, 0 <= n -> n + LB < 2 ^ UW -> yields (nlimbs_for_len n) (fun m => forall k, m <= k <-> n <= LB * k).
Proof.
  intros n Hn HU. apply wp_yields. pose proof LB_pos as LP. unfold nlimbs_for_len, unlimbs. apply wp_bind.
  apply wp_bind, wp_uadd; [lia|]. apply wp_bind, wp_usub; [lia|]. apply wp_ret. apply nlimbs_tail; [lia|]. intros k. split; intros H.
  - pose proof (Z.div_mod (n + LB - 1) LB). pose proof (Z.mod_pos_bound (n + LB - 1) LB). nia.
  - apply Z.lt_succ_r, Z.div_lt_upper_bound; lia.
Qed.
Lemma nlimbs_for_len_debug : forall n, debug c = true -> 0 <= n -> 2 ^ UW <= n + LB -> panics (nlimbs_for_len n).
Proof. intros n D Hn HU. unfold nlimbs_for_len, unlimbs. apply pan_l, pan_l, uadd_pan; auto. Qed.
Lemma nlimbs_for_len_release : forall n, debug c = false -> 0 <= n < 2 ^ UW -> 2 ^ UW < n + LB -> returns (nlimbs_for_len n) 0.
Proof.
  intros n D Hn HU. enough (yields (nlimbs_for_len n) (fun r => r = 0)) as (r & HR & ->) by exact HR.
  apply wp_yields. pose proof LB_pos as LP. unfold nlimbs_for_len, unlimbs. apply wp_bind.
  pose proof UW_big as UB. change (2 ^ 32) with 4294967296 in UB. assert (L8 : LB <= 8) by (destruct LB_cases; lia).
  apply wp_bind, wp_uadd_wrap; [auto|lia|]. apply wp_bind, wp_usub; [lia|]. apply wp_ret. apply nlimbs_tail; [lia|]. apply Z.div_small. lia.
Qed.
End View.

Lemma nlimbs_overflow_refuted :
  ~ (forall (c : cfg) n, 0 <= n < 2 ^ UW -> yields (nlimbs_for_len n) (fun m => forall k, m <= k <-> n <= LB * k)).
Proof.
  intros H. set (c := mkcfg true false true false). specialize (H c (2 ^ UW - 1)).
  destruct H as (m & HR & HM); [vm_compute; split; congruence|].
  pose proof (@nlimbs_for_len_release c (2 ^ UW - 1) eq_refl) as R. unfold returns in *. rewrite R in HR; [|vm_compute; split; congruence|reflexivity].
  injection HR as <-. destruct (HM 0) as [A _]. specialize (A (Z.le_refl 0)). apply A. reflexivity.
Qed.
