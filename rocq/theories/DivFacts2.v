(** Correctness of CtMpDivisor::new. *)
From Coq Require Import ZArith List Bool Lia.
Require Import Verif.Spec Verif.Monad Verif.Base Verif.Wp Verif.ModelLimb Verif.LimbFacts Verif.LimbFacts2 Verif.LDivFacts
  Verif.ModelBuf Verif.SpecBuf Verif.BufFacts Verif.BufFacts2 Verif.BufFacts3 Verif.UpFacts Verif.MulFacts Verif.ModelDiv Verif.DivFacts.
Import ListNotations.
Open Scope Z_scope.

(** Pose a lemma, discharge its premises and destruct it. *)
Ltac pf_aux H := feed H.
Tactic Notation "pfd" uconstr(t) "as" simple_intropattern(p) := let H := fresh in pose proof t as H; pf_aux H; destruct H as p.

Section Facts.
Context {c : cfg}.

Lemma mp_is_empty_len : forall b, mp_is_empty b = (mp_len b =? 0).
Proof. intros [l|l|l]; cbn; auto. pose proof (zlen_nonneg _ l). destruct LB_cases as [E|E]; rewrite E; destruct (Z.eqb_spec (zlen l) 0); symmetry; rewrite ?Z.eqb_eq, ?Z.eqb_neq; lia. Qed.

Definition nby (v : Z) : Z := (nbits v + 7) / 8.
Lemma nby_0 : nby 0 = 0.
Proof. unfold nby. rewrite nbits_0. reflexivity. Qed.
Lemma nby_bounds : forall v, 0 < v -> 1 <= nby v /\ 256 ^ (nby v - 1) <= v < 256 ^ nby v.
Proof.
  intros v H. unfold nby. pf (nbytes_le_iff v) as F. set (n := (nbits v + 7) / 8) in *.
  assert (N1 : 1 <= n). { destruct (Z.le_gt_cases 1 n); auto. pf (F 0) as F0. change (256 ^ 0) with 1 in F0. lia. }
  split; auto. split.
  - destruct (Z.le_gt_cases (256 ^ (n - 1)) v); auto. pf (F (n - 1)). lia.
  - apply F; lia.
Qed.
Lemma nby_nonneg : forall v, 0 <= nby v.
Proof. intros. unfold nby. pose proof (nbits_nonneg v). apply Z.div_pos; lia. Qed.
Lemma nby_limb : forall l, isl l -> nby l <= LB.
Proof. intros l H. unfold nby. apply nbytes_le_iff; [apply H|pose proof LB_pos; lia|]. pf (Bpow256 1) as E. rewrite Z.pow_1_r in E. rewrite Z.mul_1_l in E. rewrite <- E. apply H. Qed.

Lemma nby_ext : forall x l i, 0 <= i -> 0 <= x < B ^ i -> isl l -> l <> 0 -> nby (x + l * B ^ i) = i * LB + nby l.
Proof.
  intros x l i Hi Hx Hl Hn. pf (Bpow_pos i) as BP. unfold isl in Hl.
  assert (E : B ^ i = 2 ^ (8 * (i * LB))). { rewrite Bpow256 by auto. change 256 with (2 ^ 8). rewrite <- Z.pow_mul_r; auto; [lia|]. pose proof LB_pos. pose proof (mul_nn i LB). lia. }
  assert (D : (x + l * B ^ i) / B ^ i = l). { rewrite Z.div_add by lia. rewrite Z.div_small by lia. lia. }
  unfold nby. rewrite (nbits_shift (x + l * B ^ i) (8 * (i * LB))).
  - rewrite <- E, D. replace (8 * (i * LB) + nbits l + 7) with (nbits l + 7 + i * LB * 8) by ring. rewrite Z.div_add by lia. lia.
  - pose proof LB_pos. pose proof (mul_nn i LB). lia.
  - rewrite <- E, D. lia.
  - pose proof (mul_nn l (B ^ i)). lia.
Qed.

(** Length and head of a number. *)
Definition headn (v : Z) : Z := if v =? 0 then 0 else v / B ^ (ct_mp_nlimbs (nby v) - 1).
Lemma len_head_step : forall D i, 0 <= i ->
  let X := D mod B ^ i in let l := vlimb D i in let X' := D mod B ^ (i + 1) in
  nby X' = (if l =? 0 then nby X else i * LB + nby l) /\ headn X' = (if l =? 0 then headn X else l).
Proof.
  intros D i Hi X l X'. assert (E : X' = X + l * B ^ i) by (unfold X', X, l; rewrite vmod_S; auto).
  pf (Bpow_pos i) as BP. pose proof (Z.mod_pos_bound D (B ^ i) BP) as HX. fold X in HX. pose proof (vlimb_isl D i) as Hl. fold l in Hl.
  destruct (Z.eqb_spec l 0) as [Z0|Z0].
  - replace X' with X by lia. auto.
  - assert (N : nby X' = i * LB + nby l) by (rewrite E; apply nby_ext; auto). split; auto.
    unfold headn. pose proof (mul_nn l (B ^ i)). unfold isl in Hl. assert (P : B ^ i * 1 <= B ^ i * l) by (apply mul_le_l; lia).
    destruct (Z.eqb_spec X' 0); [lia|]. rewrite N.
    pfd (nby_bounds l) as (L1 & _). pose proof (nby_limb l Hl).
    rewrite (ct_mp_nlimbs_unique _ (i + 1)); [|lia|lia]. replace (i + 1 - 1) with i by lia. rewrite E, Z.div_add by lia. rewrite Z.div_small by lia. lia.
Qed.

Lemma dlen_facts : forall D, 0 < D -> let n := ct_mp_nlimbs (nby D) in
  1 <= n /\ B ^ (n - 1) <= D < B ^ n /\ vlimb D (n - 1) = D / B ^ (n - 1) /\ 0 < D / B ^ (n - 1) < B.
Proof.
  intros D HD n. destruct (nby_bounds D HD) as (N1 & N2). pfd (ct_mp_nlimbs_spec (nby D)) as (S0 & S1). fold n in S0, S1.
  pose proof LB_pos. assert (Hn : 1 <= n). { destruct (Z.eq_dec n 0); [|lia]. rewrite e in *. lia. }
  assert (HB : B ^ (n - 1) <= D < B ^ n).
  { rewrite !Bpow256 by lia. split.
    - apply Z.le_trans with (256 ^ (nby D - 1)); [|lia]. apply Z.pow_le_mono_r; lia.
    - apply Z.lt_le_trans with (256 ^ nby D); [lia|]. apply Z.pow_le_mono_r; lia. }
  pf (Bpow_pos (n - 1)) as BP. pf (Bpow_S (n - 1)) as BS. replace (n - 1 + 1) with n in BS by lia.
  assert (R : 0 < D / B ^ (n - 1) < B). { split; [apply Z.div_str_pos; lia|apply Z.div_lt_upper_bound; lia]. }
  split; auto. split; auto. split; auto. unfold vlimb. apply Z.mod_small. lia.
Qed.

Lemma decinv_0 : forall v i, decinv v 0 i 0.
Proof. intros. split; [apply isl_0|]. rewrite Z.sub_0_r. lia. Qed.
Lemma decinv_end : forall v dec i bd, 0 <= i -> 0 <= v < B ^ i -> bd <= 1 -> decinv v dec i bd ->
  (bd = 0 /\ dec <= v) \/ (bd = 1 /\ v < dec).
Proof.
  intros v dec i bd Hi Hv Hb [H1 H2]. pf (Bpow_pos i). pose proof (Z.mod_pos_bound (v - dec) (B ^ i)). rewrite Z.mod_small in H2 by auto.
  unfold isl in H1. assert (bd = 0 \/ bd = 1) as [-> | ->] by lia; lia.
Qed.

(** High limbs of the scaled number only depend on the top limbs. *)
Lemma scale_top : forall D s f k, 0 <= D -> 0 <= s < W -> 0 <= f -> 1 <= k ->
  (D / B ^ f * 2 ^ s) / B ^ k = (D * 2 ^ s) / B ^ (f + k).
Proof.
  intros D s f k HD Hs Hf Hk. destruct (scale_pow s Hs) as (P1 & P2 & P3 & P4).
  assert (BK : forall j, 1 <= j -> B ^ j = 2 ^ s * (2 ^ (W - s) * B ^ (j - 1))).
  { intros j Hj. pf (Bpow_S (j - 1)) as S. replace (j - 1 + 1) with j in S by lia. rewrite S. rewrite P3 at 1. ring. }
  pf (Bpow_pos (k - 1)). pf (Bpow_pos f). pf (Bpow_pos (f + k - 1)).
  assert (0 < 2 ^ (W - s) * B ^ (k - 1)) by (apply Z.mul_pos_pos; lia).
  assert (0 < 2 ^ (W - s) * B ^ (f + k - 1)) by (apply Z.mul_pos_pos; lia).
  rewrite (BK k), (BK (f + k)) by lia. rewrite !(Z.mul_comm _ (2 ^ s)). rewrite !Z.div_mul_cancel_l by lia.
  rewrite Z.div_div by lia. f_equal. replace (f + k - 1) with (f + (k - 1)) by lia. rewrite Z.pow_add_r by lia. ring.
Qed.
Lemma scale_top' : forall D s f k, 0 <= D -> 0 <= s < W -> 0 <= f -> 0 <= k -> (f = 0 \/ 1 <= k) ->
  (D / B ^ f * 2 ^ s) / B ^ k = (D * 2 ^ s) / B ^ (f + k).
Proof. intros D s f k HD Hs Hf Hk [-> | H]; [|apply scale_top; auto]. rewrite Z.pow_0_r, Z.div_1_r. auto. Qed.

Lemma norm_facts : forall D, 0 < D -> let n := ct_mp_nlimbs (nby D) in let s := W - nbits (vlimb D (n - 1)) in
  0 <= s < W /\ D * 2 ^ s < B ^ n /\ B <= 2 * (D * 2 ^ s / B ^ (n - 1)) /\ 0 < D * 2 ^ s / B ^ (n - 1) < B.
Proof.
  intros D HD n s. destruct (dlen_facts D HD) as (N1 & N2 & N3 & N4). fold n in N1, N2, N3, N4.
  set (h := vlimb D (n - 1)) in *. rewrite <- N3 in N4. pose proof (nbits_spec h) as HS. pose proof (nbits_pos h). assert (Ih : isl h) by (unfold isl; lia). pose proof (nbits_W h Ih).
  assert (Hs : 0 <= s < W) by (unfold s; lia). split; auto. destruct (scale_pow s Hs) as (P1 & P2 & P3 & P4).
  replace (W - s) with (nbits h) in * by (unfold s; lia).
  pf (Bpow_pos (n - 1)) as BP. pf (Bpow_S (n - 1)) as BS. replace (n - 1 + 1) with n in BS by lia.
  pose proof (Z_div_mod_eq_full D (B ^ (n - 1))) as DM. pf (Z.mod_pos_bound D (B ^ (n - 1))) as MB. rewrite <- N3 in DM.
  assert (L1 : D * 2 ^ s < B ^ n).
  { rewrite BS. replace (B * B ^ (n - 1)) with (2 ^ s * (2 ^ nbits h * B ^ (n - 1))) by (rewrite P3 at 2; ring). pose proof (mul_le_l (B ^ (n - 1)) (h + 1) (2 ^ nbits h)). assert (D < 2 ^ nbits h * B ^ (n - 1)) by lia.
    pose proof (mul_lt_l (2 ^ s) D (2 ^ nbits h * B ^ (n - 1))). lia. }
  assert (L2 : h * 2 ^ s <= D * 2 ^ s / B ^ (n - 1)).
  { apply Z.div_le_lower_bound; [lia|]. pose proof (mul_le_l (2 ^ s) (B ^ (n - 1) * h) D). lia. }
  assert (L3 : B <= 2 * (h * 2 ^ s)).
  { assert (2 ^ nbits h = 2 * 2 ^ (nbits h - 1)). { rewrite <- Z.pow_succ_r by lia. f_equal. lia. }
    pose proof (mul_le_l (2 ^ s) (2 ^ (nbits h - 1)) h). lia. }
  pose proof B_gt. split; auto. split; [lia|]. split; [lia|]. apply Z.div_lt_upper_bound; [lia|]. lia.
Qed.

(** The computation of the scaled head, from [v_len] and [v_head]. *)
Lemma wp_new_core : forall v dec D (Q : result mp_divisor divisor_err -> Prop) v_len v_head,
  mp_ok v -> isl (match dec with Some x => x | None => 0 end) ->
  D = mpval v - match dec with Some x => x | None => 0 end -> 0 < D ->
  v_len = nby D -> v_head = vlimb D (ct_mp_nlimbs v_len - 1) ->
  (forall d, dv_ok d -> dv_v d = v -> dv_dec d = dec -> Q (Ok d)) ->
  wp (
    let v_nlimbs := ct_mp_nlimbs v_len in
    let! v_head_width := ct_find_last_set_bit_l v_head in
    dassert (negb (v_head_width =? 0)) ;;
    let! scaling_shift := sub32 W v_head_width in
    let! r := sub32 W scaling_shift in
    let scaling_low_src_rshift := r mod W in
    let! scaling_low_src_mask := ct_lsb_mask_l scaling_shift in
    let! first := usub v_nlimbs (Z.min 3 v_nlimbs) in
    let! v_decrement_borrow :=
      match dec with
      | Some dec =>
        zfor 0 first (fun i v_decrement_borrow =>
          let! v_val := load_l_full v i in
          let! '(v_decrement_borrow, _) := ct_sub_l_l v_val v_decrement_borrow in
          ret v_decrement_borrow) dec
      | None => ret 0
      end in
    let! '(_, scaled_v_carry, scaled_v_head, scaled_v_tail_head) :=
      zfor first v_nlimbs (fun i '(v_decrement_borrow, scaled_v_carry, scaled_v_head, _) =>
        let scaled_v_tail_head := scaled_v_head in
        let! v_val := load_l v i in
        let! '(v_decrement_borrow, v_val) := ct_sub_l_l v_val v_decrement_borrow in
        let! '(scaled_v_carry, scaled_v_head) :=
          scale_val_ v_val scaling_shift scaling_low_src_rshift scaling_low_src_mask scaled_v_carry in
        ret (v_decrement_borrow, scaled_v_carry, scaled_v_head, scaled_v_tail_head))
        (v_decrement_borrow, 0, 0, 0) in
    dassert (scaled_v_carry =? 0) ;;
    let! ld := ct_l_divisor_new scaled_v_head in
    match ld with
    | Err _ => panic
    | Ok ld => ret (Ok (mk_divisor v dec v_len scaling_shift scaling_low_src_rshift
                          scaling_low_src_mask ld scaled_v_head scaled_v_tail_head))
    end) Q.
Proof.
  intros v dec D Q v_len v_head Hv Hdec ED HD EL EH HQ. cbv zeta. set (dec0 := match dec with Some x => x | None => 0 end) in *.
  destruct (dlen_facts D HD) as (N1 & N2 & N3 & N4). destruct (norm_facts D HD) as (M1 & M2 & M3 & M4). destruct (nby_bounds D HD) as (L1 & L2).
  rewrite <- EL in N1, N2, N3, N4, M1, M2, M3, M4, L1, L2. set (n := ct_mp_nlimbs v_len) in *. rewrite <- EH in M1, M2, M3, M4. 
  assert (Hh : 0 < v_head < B) by (rewrite EH, N3; auto).
  set (s := W - nbits v_head) in *.
  pf (nbits_pos v_head) as NP.
  assert (LL : v_len <= mp_len v). { rewrite EL. apply nbytes_le_iff; [lia|apply mp_len_nonneg|]. pose proof (mpval_bound v Hv). unfold isl in Hdec. lia. }
  assert (NL : n <= nlimbs v). { pfd (ct_mp_nlimbs_spec v_len) as (_ & S1). fold n in S1. pose proof (nlimbs_lt v (n - 1)). lia. }
  apply wp_bind, wp_fls; [unfold isl; lia|]. apply wp_bind, wp_dassert. { apply negb_true_iff, Z.eqb_neq. lia. }
  assert (Ih : isl v_head) by (unfold isl; lia). pose proof (nbits_W v_head Ih).
  apply wp_bind, wp_sub32; [lia|]. fold s. apply wp_bind, wp_sub32; [lia|]. apply wp_bind, wp_lsb_mask; [lia|].
  apply wp_bind, wp_usub; [lia|]. set (f := n - Z.min 3 n). assert (Hf : 0 <= f <= n) by lia.
  assert (F3 : f = 0 \/ n = f + 3) by lia.
  apply wp_bind. apply wp_mono with (Q := fun bd => decinv (mpval v) dec0 f bd).
  { destruct dec as [x|]; cbn in dec0.
    - eapply wp_for with (I := fun i bd => decinv (mpval v) dec0 i bd); [lia|apply decinv_init; auto| |auto].
      intros i bd Hi HI. apply wp_bind, wp_load_full; auto; [lia|apply nlimbs_full; lia|]. rewrite limb_vlimb.
      apply wp_bind, wp_dec_limb with (dec := dec0); auto; lia.
    - apply wp_ret. apply decinv_0. }
  intros bd0 HB0. set (D' := D / B ^ f) in *. set (V' := D' * 2 ^ s).
  apply wp_bind. eapply wp_for with (I := fun i '(bd, cy, hd, tl) => decinv (mpval v) dec0 i bd /\ scinv D' s (i - f) cy /\
     hd = (if f <? i then vlimb V' (i - f - 1) else 0) /\ tl = (if f <? i - 1 then vlimb V' (i - f - 2) else 0)).
  - lia.
  - split; auto. rewrite Z.sub_diag. split; [apply scinv_init; lia|]. rewrite Z.ltb_irrefl. destruct (Z.ltb_spec f (f - 1)); [lia|]. auto.
  - intros i [[[bd cy] hd] tl] Hi (I1 & I2 & I3 & I4). apply wp_bind, wp_load; auto; [lia|]. rewrite limb_vlimb.
    apply wp_bind, wp_dec_limb with (dec := dec0); auto; [lia|]. intros bd' Hbd' I1'. rewrite <- ED.
    rewrite <- (limb_of_div D i f) by lia. fold D'.
    apply wp_bind, wp_scale; [apply vlimb_isl|lia|apply I2|]. intros cy' x Hx Hcy E. apply wp_ret.
    destruct (scinv_step _ _ (i - f) cy x cy' ltac:(lia) I2 Hx Hcy E) as [-> I2'].
    split; [auto|]. split; [replace (i + 1 - f) with (i - f + 1) by lia; auto|].
    destruct (Z.ltb_spec f (i + 1)); [|lia]. replace (i + 1 - f - 1) with (i - f) by lia. split; auto.
    replace (i + 1 - 1) with i by lia. replace (i + 1 - f - 2) with (i - f - 1) by lia. auto.
  - intros [[[bd cy] hd] tl] (_ & I2 & I3 & I4).
    assert (D'0 : 0 <= D') by (apply Z.div_pos; [lia|apply Bpow_pos; lia]).
    assert (cy = 0). { eapply scinv_end; [|apply I2| | |]; try lia. 
      pf (Bpow_pos f) as FP. assert (B ^ n = B ^ f * B ^ (n - f)) by (rewrite <- Z.pow_add_r by lia; f_equal; lia).
      assert (B ^ f * D' <= D) by (apply Z.mul_div_le; lia). pf (Z.pow_pos_nonneg 2 s) as SP. pf (mul_le_l (2 ^ s) (B ^ f * D') D) as ML.
      apply mul_lt_cancel with (c := B ^ f); [lia|]. clear - M2 H0 ML. lia. }
    subst cy. apply wp_bind, wp_dassert; [reflexivity|].
    destruct (Z.ltb_spec f n); [|lia].
    assert (EHD : hd = D * 2 ^ s / B ^ (n - 1)).
    { rewrite I3. unfold vlimb, V', D'. rewrite scale_top' by lia. replace (f + (n - f - 1)) with (n - 1) by lia. apply Z.mod_small. lia. }
    apply wp_bind, wp_l_divisor_new; [unfold isl; lia|lia|]. intros d Hd0 Hd. apply wp_ret. apply HQ; auto.
    assert (TL : tl = if 2 <=? n then vlimb (D * 2 ^ s) (n - 2) else 0).
    { rewrite I4. destruct (Z.leb_spec 2 n); destruct (Z.ltb_spec f (n - 1)); auto; try (clear - F3 H0 H1 H2; lia).
      unfold vlimb, V', D'. rewrite scale_top' by (clear - F3 H0 H1 H2 HD M1 Hf; lia). do 3 f_equal. clear; lia. }
    clear - Hv Hdec L1 L2 LL M1 N1 NL M2 M3 Hd EHD TL ED.
    constructor; unfold dvV, dvn, dval, dv_dec0; cbn [dv_v dv_dec dv_len dv_shift dv_rshift dv_mask dv_ldiv dv_head dv_tail]; fold dec0 n; rewrite <- ?ED; auto; try lia.
Qed.

Lemma wp_divisor_new : forall v dec (Q : result mp_divisor divisor_err -> Prop),
  mp_ok v -> isl (match dec with Some x => x | None => 0 end) ->
  let D := mpval v - match dec with Some x => x | None => 0 end in
  (dec = None -> mpval v = 0 -> mp_len v = 0) ->
  (D <= 0 -> Q (Err DivisorIsZero)) ->
  (0 < D -> forall d, dv_ok d -> dv_v d = v -> dv_dec d = dec -> Q (Ok d)) ->
  wp (mp_divisor_new v dec) Q.
Proof.
  intros v dec Q Hv Hdec D HN HE HQ. unfold mp_divisor_new. pose proof (mpval_bound_B v Hv) as VB. pose proof (mpval_bound v Hv) as VL.
  apply wp_mif; intros EM.
  { apply wp_ret. apply HE. rewrite mp_is_empty_len in EM. apply Z.eqb_eq in EM. rewrite EM, Z.pow_0_r in VL. unfold D, isl in *. lia. }
  rewrite mp_is_empty_len in EM. apply Z.eqb_neq in EM. pose proof (mp_len_nonneg v).
  assert (N1 : 1 <= nlimbs v) by (pose proof (nlimbs_lt v 0); lia).
  assert (SZ : nlimbs v * LB < 2 ^ UW). { destruct Hv as [_ Hs]. pose proof (nlimbs_spec v). destruct LB_cases as [E|E]; rewrite E in *; lia. }
  assert (SN : nby D < 2 ^ UW \/ D <= 0).
  { destruct (Z.le_gt_cases D 0); [auto|left]. assert (nby D <= mp_len v). { apply nbytes_le_iff; [lia|lia|]. unfold D, isl in *. lia. } destruct Hv as [_ Hs]. lia. }
  apply wp_bind. eapply wp_mono.
  - instantiate (1 := fun lh => match lh with None => D <= 0 | Some (l, h) => 0 <= D /\ l = nby D /\ (0 < D -> h = vlimb D (ct_mp_nlimbs l - 1)) end).
    destruct dec as [x|].
    + apply wp_bind. eapply wp_for with (I := fun i '(bd, l, h) => decinv (mpval v) x i bd /\ (i = 0 \/ bd <= 1) /\
        l = nby (D mod B ^ i) /\ h = headn (D mod B ^ i) /\ 0 <= l <= i * LB /\ isl h).
      * lia.
      * rewrite Z.pow_0_r, Z.mod_1_r, nby_0. split; [apply decinv_init; auto|]. split; auto. split; auto. split; auto. split; [lia|apply isl_0].
      * intros i [[bd l] h] Hi (I1 & _ & I2 & I3 & I4 & I5). apply wp_bind, wp_load; auto. rewrite limb_vlimb.
        apply wp_bind, wp_dec_limb with (dec := x); auto; [lia|]. intros bd' Hb I1'. fold D.
        pose proof (vlimb_isl D i) as Il. apply wp_bind, wp_eq_l; auto; [apply isl_0|].
        apply wp_bind, wp_fls_byte; auto. fold (nby (vlimb D i)). apply wp_ret.
        destruct (len_head_step D i (proj1 Hi)) as (E1 & E2). cbv zeta in E1, E2. pose proof (nby_nonneg (vlimb D i)). pose proof (nby_limb _ Il).
        pose proof (mul_LB_lt i (nlimbs v)). pose proof LB_pos. pose proof (mul_nn i LB).
        rewrite lc_select_usize_chc, lc_select_chc by (auto; lia). rewrite E1, E2, <- I2, <- I3.
        split; auto. split; [right; lia|]. split; auto. split; auto. destruct (vlimb D i =? 0); split; auto; lia.
      * intros [[bd l] h] (I1 & I1' & I2 & I3 & _). assert (BD1 : bd <= 1) by lia. destruct (decinv_end _ _ _ _ (nlimbs_nonneg v) VB BD1 I1) as [[-> HL]|[-> HL]].
        -- apply wp_mif; [discriminate|intros _]. apply wp_ret. unfold isl in Hdec.
           rewrite Z.mod_small in I2, I3 by (unfold D; lia). split; [unfold D; lia|]. split; auto. intros HD.
           rewrite I3. unfold headn. destruct (Z.eqb_spec D 0); [lia|]. rewrite I2. symmetry. apply dlen_facts; auto.
        -- apply wp_mif; [intros _|discriminate]. apply wp_ret. unfold D. lia.
    + apply wp_bind, wp_find_last_set_byte; auto. fold (nby (mpval v)).
      assert (DE : D = mpval v) by (unfold D; lia). rewrite <- DE in *. assert (HD : 0 < D). { destruct (Z.eq_dec D 0); [|lia]. specialize (HN eq_refl e). lia. }
      destruct (dlen_facts D HD) as (F1 & F2 & F3 & F4). apply wp_bind, wp_usub; [lia|].
      assert (NL : ct_mp_nlimbs (nby D) <= nlimbs v).
      { assert (nby D <= mp_len v) by (apply nbytes_le_iff; lia). destruct (ct_mp_nlimbs_spec (nby D) (nby_nonneg D)) as (_ & S1). pose proof (nlimbs_lt v (ct_mp_nlimbs (nby D) - 1)). lia. }
      apply wp_bind, wp_load; auto; [lia|]. rewrite limb_vlimb, <- DE. apply wp_ret. split; [lia|]. auto.
  - intros [[l h]|]; [|intros; apply wp_ret; auto]. intros (D0 & EL & EH).
    assert (IU : isu l). { destruct SN as [|]; [unfold isu; pose proof (nby_nonneg D); lia|]. replace D with 0 in EL by lia. rewrite EL, nby_0. unfold isu. pose proof UW_gt. lia. }
    rewrite ct_is_zero_usize_eq by auto. destruct (Z.eq_dec D 0) as [Z0|Z0].
    + replace l with 0 by (rewrite EL, Z0; apply eq_sym, nby_0). apply wp_mif; [intros _|discriminate]. apply wp_ret. apply HE. lia.
    + pfd (nby_bounds D) as (L1 & _). destruct (Z.eqb_spec l 0); [lia|]. apply wp_mif; [discriminate|intros _].
      apply (wp_new_core v dec D Q l h); auto; try lia. apply HQ. lia.
Qed.

End Facts.
