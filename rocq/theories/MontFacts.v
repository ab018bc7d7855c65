(** Facts about montgomery_impl.rs (ModelMont.v): the reduction kernel. *)
From Coq Require Import ZArith List Bool Lia.
Require Import Verif.Spec Verif.Base Verif.Monad Verif.Wp Verif.ModelLimb Verif.LimbFacts Verif.LimbFacts2
  Verif.ModelBuf Verif.SpecBuf Verif.BufFacts Verif.BufFacts2 Verif.BufFacts3 Verif.UpFacts Verif.ModelCmp Verif.CmpFacts
  Verif.ModelAdd Verif.AddFacts Verif.ModelMont.
Import ListNotations.
Open Scope Z_scope.

Section Facts.
Context {c : cfg}.

Lemma pow_split_B : forall e, 0 <= e <= W -> B = 2 ^ e * 2 ^ (W - e).
Proof. intros e H. rewrite <- Z.pow_add_r by lia. rewrite B_eq. f_equal. lia. Qed.
Lemma mod_pow_B : forall x e, 0 <= e <= W -> (x mod B) mod 2 ^ e = x mod 2 ^ e.
Proof. intros x e H. rewrite (pow_split_B e H). apply mod_mul_le; apply pow2_gt0; lia. Qed.

Lemma wp_rshift_lo : forall e v (Q : Z -> Prop), 0 <= e <= W -> isl v -> Q (v / 2 ^ e) -> wp (redc_rshift_lo (e mod W) (2 ^ e - 1) v) Q.
Proof.
  intros e v Q He Hv HQ. unfold redc_rshift_lo. pose proof W_pos as WP. pf (pow2_gt0 e) as PE.
  rewrite land_lnot_mask by auto. apply wp_lshr; [apply Z.mod_pos_bound; lia|].
  destruct (Z.eq_dec e W) as [->|NE].
  - rewrite Z.mod_same by lia. change (2 ^ 0) with 1. rewrite Z.div_1_r. rewrite <- B_eq in *. rewrite (Z.mod_small v B), (Z.div_small v B) in * by auto.
    rewrite Z.sub_diag. auto.
  - rewrite (Z.mod_small e W) by lia. rewrite sub_mod_eq by lia. rewrite Z.mul_comm, Z.div_mul by lia. auto.
Qed.
Lemma wp_lshift_hi : forall e v (Q : Z -> Prop), 0 <= e <= W -> isl v -> Q ((v mod 2 ^ e) * 2 ^ (W - e)) -> wp (redc_lshift_hi (e mod W) (2 ^ e - 1) v) Q.
Proof.
  intros e v Q He Hv HQ. unfold redc_lshift_hi. pose proof W_pos as WP. pf (pow2_gt0 e) as PE. pf (pow2_gt0 (W - e)) as PE2. pf (pow_split_B e) as SB.
  pf (Z.mod_pos_bound e W) as MB. apply wp_bind, wp_sub32; [lia|]. rewrite land_mask by lia. apply wp_lshl; [apply Z.mod_pos_bound; lia|].
  pf (Z.mod_pos_bound v (2 ^ e)) as VB. pose proof (mul_rng (v mod 2 ^ e) (2 ^ e) (2 ^ (W - e)) VB PE2) as MR.
  destruct (Z.eq_dec e W) as [->|NE].
  - rewrite Z.mod_same, Z.sub_0_r, Z.mod_same by lia. rewrite Z.sub_diag in *. rewrite Z.mod_small by lia. auto.
  - rewrite (Z.mod_small e W) by lia. destruct (Z.eq_dec e 0) as [->|N0].
    + rewrite Z.sub_0_r, Z.mod_same by lia. change (2 ^ 0) with 1 in *. rewrite Z.mod_1_r in *. rewrite Z.mul_0_l in *. rewrite Z.mod_0_l by lia. auto.
    + rewrite (Z.mod_small (W - e)) by lia. rewrite Z.mod_small by lia. auto.
Qed.

(** State of the kernel for reducing by 2^e with factor [m]: [X] is what remains to be produced. *)
Definition rkst (e m X : Z) (k : redc_kernel) : Prop :=
  0 <= e <= W /\ 0 <= m < 2 ^ e /\ rk_rshift k = e mod W /\ rk_mask k = 2 ^ e - 1 /\ rk_m k = m /\
  0 <= rk_last k < 2 ^ (W - e) /\ isl (rk_carry k) /\ X = 2 ^ e * rk_last k + B * rk_carry k.

Lemma wp_redc_start : forall e t0 n0 g (Q : redc_kernel -> Prop), 0 <= e <= W -> isl t0 -> isl n0 -> isl g -> lwmul n0 g = B - 1 ->
  (forall m k, rkst e m (t0 + m * n0) k -> Q k) -> wp (redc_start e t0 n0 g) Q.
Proof.
  intros e t0 n0 g Q He Ht Hn Hg HG HQ. unfold redc_start. pf (pow2_gt0 e) as PE. pf (pow2_gt0 (W - e)) as PE2. pf (pow_split_B e) as SB. pose proof (pow2_le_B e He) as PLE.
  apply wp_bind, wp_dassert; [apply Z.leb_le; lia|]. apply wp_bind, wp_lsb_mask; auto. rewrite !land_mask by lia.
  assert (G1 : (g * n0) mod 2 ^ e = 2 ^ e - 1).
  { unfold lwmul in HG. rewrite Z.mul_comm. rewrite <- (mod_pow_B (n0 * g) e He), HG. symmetry. apply Z.mod_unique with (q := 2 ^ (W - e) - 1); [left; lia|]. rewrite SB. ring. }
  apply wp_bind, wp_dassert.
  { apply Z.eqb_eq. unfold lwmul. rewrite mod_pow_B by auto. rewrite Z.mul_mod_idemp_l by lia. exact G1. }
  unfold lwmul. rewrite mod_pow_B by auto. rewrite Z.mul_mod_idemp_r by lia. set (m := (t0 * g) mod 2 ^ e) in *.
  assert (Hm : 0 <= m < 2 ^ e) by (apply Z.mod_pos_bound; lia).
  assert (Z0 : (t0 + m * n0) mod 2 ^ e = 0).
  { unfold m. rewrite <- Z.add_mod_idemp_r, Z.mul_mod_idemp_l, Z.add_mod_idemp_r by lia.
    replace (t0 + t0 * g * n0) with (t0 * (1 + g * n0)) by ring. rewrite Z.mul_mod, <- (Z.add_mod_idemp_r 1), G1 by lia.
    replace (1 + (2 ^ e - 1)) with (2 ^ e) by ring. rewrite Z.mod_same, Z.mul_0_r by lia. apply Z.mod_0_l. lia. }
  clearbody m. apply wp_bind, wp_mul_add; auto; [split; lia|apply isl_0|]. intros h l Hh Hl E. rewrite Z.add_0_r in E.
  assert (L0 : l mod 2 ^ e = 0).
  { rewrite E, SB in Z0. replace (h * (2 ^ e * 2 ^ (W - e)) + l) with (l + (h * 2 ^ (W - e)) * 2 ^ e) in Z0 by ring. rewrite Z.mod_add in Z0 by lia. auto. }
  apply wp_bind, wp_dassert; [apply Z.eqb_eq; rewrite land_mask by lia; auto|].
  apply wp_bind, wp_rshift_lo; auto. apply wp_ret. apply (HQ m). pose proof (Z_div_mod_eq_full l (2 ^ e)) as DM.
  split; [auto|]. cbn [rk_rshift rk_mask rk_m rk_last rk_carry]. do 4 (split; [auto|]). split; [|split; [auto|]].
  - split; [apply Z.div_pos; [apply Hl|lia]|]. apply Z.div_lt_upper_bound; [lia|]. rewrite <- SB. apply Hl.
  - lia.
Qed.

Lemma wp_redc_update : forall e m X k t n (Q : redc_kernel * Z -> Prop), rkst e m X k -> isl t -> isl n ->
  (forall X' k' r, rkst e m X' k' -> isl r -> 2 ^ e * r + B * X' = X + B * (t + m * n) -> Q (k', r)) -> wp (redc_update k t n) Q.
Proof.
  intros e m X k t n Q (He & Hm & E1 & E2 & E3 & Hl & Hc & EX) Ht Hn HQ. unfold redc_update. rewrite E1, E2, E3.
  pf (pow2_gt0 e) as PE. pf (pow2_gt0 (W - e)) as PE2. pf (pow_split_B e) as SB. pose proof (pow2_le_B e He) as PLE.
  apply wp_bind, wp_mul_add; auto; [split; lia|]. intros h v Hh Hv E.
  apply wp_bind, wp_lshift_hi; auto. apply wp_bind, wp_rshift_lo; auto. apply wp_ret.
  pf (Z.mod_pos_bound v (2 ^ e)) as VB. pose proof (Z_div_mod_eq_full v (2 ^ e)) as DM.
  rewrite Z.lor_comm, lor_shift_add by lia.
  apply (HQ (2 ^ e * (v / 2 ^ e) + B * h)).
  - split; [auto|]. cbn [rk_rshift rk_mask rk_m rk_last rk_carry]. do 4 (split; [auto|]). split; [|auto].
    split; [apply Z.div_pos; [apply Hv|lia]|]. apply Z.div_lt_upper_bound; [lia|]. rewrite <- SB. apply Hv.
  - pose proof (dig2_lt _ _ _ _ VB Hl) as R. rewrite <- SB in R. split; lia.
  - rewrite EX. replace (B * (t + m * n)) with (B * (h * B + v - rk_carry k)) by (rewrite <- E; ring).
    replace (2 ^ e * (v mod 2 ^ e * 2 ^ (W - e) + rk_last k)) with (B * (v mod 2 ^ e) + 2 ^ e * rk_last k) by (rewrite SB; ring).
    rewrite DM at 3. ring.
Qed.

(** The last step for a reduction by a full limb. *)
Lemma wp_redc_finish : forall m X k t (Q : Z * Z -> Prop), rkst W m X k -> isl t ->
  (forall k' r, (k' = 0 \/ k' = 1) -> isl r -> B * (r + B * k') = X + B * t -> Q (k', r)) -> wp (redc_finish k t) Q.
Proof.
  intros m X k t Q (He & Hm & E1 & E2 & E3 & Hl & Hc & EX) Ht HQ. unfold redc_finish. rewrite E1, E2. pose proof W_pos as WP.
  rewrite land_lnot_mask by auto. rewrite <- B_eq in *. rewrite Z.sub_diag in Hl. change (2 ^ 0) with 1 in Hl. assert (L0 : rk_last k = 0) by lia.
  apply wp_bind, wp_dassert. { apply Z.eqb_eq. rewrite Z.mod_small by auto. lia. }
  apply wp_bind, wp_add_l; auto. intros k' r Hk Hr E. apply wp_bind. replace (B - 1) with (2 ^ W - 1) by (rewrite B_eq; auto). apply wp_lshift_hi; auto.
  apply wp_ret. rewrite L0, Z.lor_0_l. rewrite Z.sub_diag, Z.mul_1_r. rewrite <- B_eq. rewrite Z.mod_small by auto. apply HQ; auto. rewrite EX, L0. rewrite <- E. ring.
Qed.

End Facts.
