(** Correctness of ct_div_mp_l. *)
From Coq Require Import ZArith List Bool Lia.
Require Import Verif.Spec Verif.Monad Verif.Base Verif.Wp Verif.ModelLimb Verif.LimbFacts Verif.LimbFacts2 Verif.LDivFacts
  Verif.ModelBuf Verif.SpecBuf Verif.BufFacts Verif.BufFacts2 Verif.BufFacts3 Verif.CompFacts Verif.UpFacts Verif.ShiftFacts Verif.MulFacts
  Verif.ModelDiv Verif.SpecDiv Verif.DivFacts Verif.DivFacts2 Verif.DivFacts3 Verif.DivFacts4.
Import ListNotations.
Open Scope Z_scope.

Section Facts.
Context {c : cfg}.

Lemma nby_unique : forall v k, 0 < v -> 1 <= k -> 256 ^ (k - 1) <= v < 256 ^ k -> (nbits v + 7) / 8 = k.
Proof.
  intros v k Hv Hk HB. pf (nbits_spec v) as NS. assert (E : forall n, 0 <= n -> 256 ^ n = 2 ^ (8 * n)). { intros. rewrite Z.pow_mul_r by lia. reflexivity. }
  rewrite !E in HB by lia.
  assert (8 * k - 8 < nbits v). { destruct (Z.lt_ge_cases (8 * k - 8) (nbits v)); auto. pose proof (Z.pow_le_mono_r 2 (nbits v) (8 * (k - 1))). lia. }
  assert (nbits v <= 8 * k). { apply nbits_le; lia. }
  symmetry. apply Z.div_unique with (r := nbits v + 7 - 8 * k); lia.
Qed.

(** The buffer ends where limb n - 1 begins, and storing zero there does nothing. *)
Definition q_ends (b : mp) (n : Z) : Prop := mp_len b = (n - 1) * LB /\ (kind_of b = KBE \/ kind_of b = KLE /\ debug c = false).
Definition q_limbs (q : option mp) (n : Z) : Prop := match q with Some b => n <= nlimbs b \/ q_ends b n | None => True end.

Lemma wp_store_end : forall b n (Q : mp -> Prop), 1 <= n -> q_ends b n -> Q b -> wp (store_l b (n - 1) 0) Q.
Proof.
  intros b n Q Hn [HL HK] HQ. pose proof LB_pos as LP. unfold store_l. apply wp_bind, wp_tick.
  destruct b as [l|l|l]; cbn [mp_len kind_of] in *; [| |destruct HK as [HK|[HK _]]; discriminate].
  - apply wp_bind. unfold be_mp_store_l. apply wp_bind, wp_dassert; [apply Z.leb_le; lia|]. apply wp_bind, wp_usub; [lia|].
    rewrite HL, Z.sub_diag. apply wp_mif; intros E; [apply Z.leb_le in E; lia|].
    apply wp_bind, wp_dassert_m; [apply wp_bind, wp_lshr; [pose proof W_pos; lia|]; apply wp_ret; reflexivity|].
    unfold _be_mp_store_l_high_partial. apply wp_bind, wp_slice; [lia|apply zlen_nonneg|]. apply wp_bind, wp_usub; [lia|].
    apply wp_bind, wp_slice; [lia|unfold to_be_bytes; rewrite zlen_rev, to_le_len; lia|].
    apply wp_ret, wp_ret. rewrite Z.sub_0_r, Z.sub_diag. cbn [Z.to_nat firstn]. unfold splice. cbn. exact HQ.
  - destruct HK as [HK|[_ D]]; [discriminate|]. apply wp_bind. unfold le_mp_store_l. apply wp_bind. unfold dassert. rewrite D. apply wp_ret.
    apply wp_mif; intros E; [apply Z.leb_le in E; lia|]. apply wp_bind. unfold dassert_m. rewrite D. apply wp_ret.
    unfold _le_mp_store_l_high_partial. apply wp_bind, wp_slice; [nia|lia|]. apply wp_bind, wp_usub; [lia|]. rewrite HL, Z.sub_diag.
    apply wp_bind, wp_slice; [lia|apply zlen_nonneg|]. apply wp_ret, wp_ret. cbn [Z.to_nat firstn skipn]. rewrite Z.sub_diag. cbn [Z.to_nat firstn].
    unfold splice. cbn [length app]. rewrite Nat.add_0_r, firstn_skipn. exact HQ.
Qed.

Lemma wp_div_mp_l : forall u ld v vl q_out (P : result Z div_err * option mp -> Prop),
  mp_ok u -> ld_ok ld v -> 1 <= vl -> 256 ^ (vl - 1) <= v < 256 ^ vl -> q_ok q_out ->
  let U := mpval u in 
  let short := match q_out with Some b => mp_len b + vl < mp_len u + 1 | None => False end in
  1 <= mp_len u -> (short \/ mp_len u < vl \/ q_limbs q_out (nlimbs u)) ->
  (short -> P (Err InsufficientQuotientSpace, q_out)) ->
  (~ short -> forall q', o_same q_out q' -> q_is q' (U / v) -> P (Ok (U mod v), q')) ->
  wp (ct_div_mp_l u ld q_out) P.
Proof.
  intros u ld v vl q_out P Hu Hd Hvl Hvb Hq U short Hlen Hcase HS HF. unfold ct_div_mp_l. fold (nlimbs u).
  pose proof Hd as (Hv & Ev & _). pose proof (mpval_bound u Hu) as UB. pose proof (mpval_bound_B u Hu) as UB'. fold U in UB, UB'.
  assert (N1 : 0 < nlimbs u) by (apply nlimbs_lt; lia). pose proof LB_pos as LP.
  apply wp_mif; intros E0. { apply Z.eqb_eq in E0. lia. } clear E0.
  assert (D0 : 0 <= U / v) by (apply Z.div_pos; lia).
  assert (SM : mp_len u < vl -> U < v). { intros. pose proof (Z.pow_le_mono_r 256 (mp_len u) (vl - 1)). lia. }
  apply wp_bind. apply wp_mono with (Q := fun st => match st with inl r => P r | inr q1 => ~ short /\ qinv q_out (U / v) (nlimbs u) q1 /\ qfit q_out (U / v) /\ q_limbs q_out (nlimbs u) end).
  { destruct q_out as [b|].
    2:{ apply wp_ret. cbn. auto. }
    apply wp_bind, wp_fls_byte; [rewrite Ev; unfold isl; lia|]. rewrite Ev, (nby_unique v vl) by lia. cbn [q_ok] in Hq.
    apply wp_mif; intros E1. { apply wp_ret. apply HS. apply Z.ltb_lt in E1. auto. }
    apply Z.ltb_ge in E1. assert (NS : ~ short) by (unfold short; lia).
    apply wp_mif; intros E2.
    { apply Z.ltb_lt in E2. specialize (SM E2). apply wp_bind, wp_clear_above; auto; [lia|]. intros b' (O & S & V).
      apply wp_bind, wp_load; auto; [lia|]. apply wp_ret.
      assert (EL : limb u 0 = U mod v). { rewrite limb_vlimb. unfold vlimb. rewrite Z.pow_0_r, Z.div_1_r. fold U. rewrite !Z.mod_small; auto; lia. }
      rewrite EL. apply HF; auto; [cbn; auto|]. cbn. rewrite V, Z.pow_0_r, Z.mod_1_r. symmetry. apply Z.div_small. lia. }
    apply Z.ltb_ge in E2. apply wp_bind, wp_usub; [lia|]. apply wp_bind, wp_clear_above; auto; [lia|]. intros b' (O & S & V).
    apply wp_ret. split; auto. pf (q_bound U v vl (mp_len u)) as QB. replace (mp_len u - vl + 1) with (mp_len u + 1 - vl) in * by lia.
    assert (QF : U / v < 256 ^ mp_len b). { eapply Z.lt_le_trans; [apply QB|]. apply Z.pow_le_mono_r; lia. }
    split; [|split; [exact QF|destruct Hcase as [HC|[HC|HC]]; [contradiction|lia|exact HC]]].
    cbn [qinv]. split; auto. split; auto. pf (p256_pos (mp_len u + 1 - vl)) as PP. pf (Z.mod_pos_bound (mpval b) (256 ^ (mp_len u + 1 - vl))) as MB. rewrite <- V in MB.
    assert (256 ^ (mp_len u + 1 - vl) <= B ^ nlimbs u).
    { rewrite Bpow256 by lia. apply Z.pow_le_mono_r; [lia|]. pose proof (nlimbs_spec u). lia. }
    rewrite !Z.div_small by lia. auto. }
  intros [r|q1]; [intros H; apply wp_ret; auto|]. intros (NS & QI & QF & QL).
  apply wp_bind. eapply wp_for_down with (I := fun j '(q, uh) => qinv q_out (U / v) j q /\ uh = U / B ^ j mod v).
  { lia. } { split; auto. rewrite Z.div_small by lia. symmetry. apply Z.mod_0_l. lia. }
  { intros j [q uh] Hj [I1 ->]. apply wp_bind, wp_load; auto. pf (Bpow_pos j) as BP. pf (Bpow_pos (j + 1)) as BP1.
    pf (Z.mod_pos_bound (U / B ^ (j + 1)) v) as MB. pose proof (vlimb_isl U j) as IL. rewrite limb_vlimb. fold U.
    apply wp_bind, wp_l_divisor_do_div with (v := v); auto. intros q' r Iq Hr E.
    pf (vdiv_S U j) as VS. pose proof (Z_div_mod_eq_full (U / B ^ (j + 1)) v) as DM. set (A := U / B ^ (j + 1)) in *.
    assert (E2 : U / B ^ j = (A / v * B + q') * v + r) by lia.
    assert (ER : r = U / B ^ j mod v). { apply Z.mod_unique with (q := A / v * B + q'); lia. }
    assert (EQ : U / v / B ^ j = A / v * B + q').
    { rewrite Z.div_div, Z.mul_comm, <- Z.div_div by lia. symmetry. apply Z.div_unique with (r := r); lia. }
    assert (EQ' : vlimb (U / v) j = q'). { unfold vlimb. rewrite EQ. rewrite Z.add_comm, Z.mod_add by (pose proof B_gt; lia). apply Z.mod_small. auto. }
    destruct q_out as [b0|], q as [bq|]; cbn [qinv] in I1; try contradiction.
    2:{ apply wp_ret. cbn. auto. }
    destruct I1 as (O & S & E1). pose proof (shape_nlimbs _ _ S) as SN. cbn [q_limbs qfit] in *.
    pose proof (fit_limb b0 (U / v) j) as FL. rewrite EQ' in FL.
    destruct (Z.lt_ge_cases j (nlimbs b0)) as [IN|OUT].
    2:{ destruct QL as [QL|QE]; [lia|]. pose proof (nlimbs_spec b0) as NB0.
      assert (JE : j = nlimbs u - 1). { destruct QE as [QE _]. assert ((nlimbs u - 1) * LB <= nlimbs b0 * LB) by lia. apply Z.mul_le_mono_pos_r in H; lia. }
      assert (QE' : q_ends bq (nlimbs u)). { destruct QE as [QE1 QE2]. destruct S as [SK SL]. split; [lia|rewrite SK; auto]. }
      assert (LJ : 256 ^ mp_len b0 = B ^ j). { rewrite Bpow256 by lia. f_equal. destruct QE as [QE _]. rewrite QE, <- JE. ring. }
      assert (Z0 : U / v / B ^ j = 0) by (apply Z.div_small; lia).
      assert (q' = 0) by (rewrite <- EQ'; unfold vlimb; rewrite Z0; apply Z.mod_0_l; pose proof B_gt; lia). replace q' with 0. clear EQ'. rewrite JE at 1.
      apply wp_bind, wp_store_end; [lia|exact QE'|]. apply wp_ret. split; [|exact ER]. cbn [qinv]. split; [auto|]. split; [auto|].
      rewrite Z0. apply Z.div_small. pose proof (mpval_bound bq O) as MBQ. rewrite (shape_len _ _ S), LJ in MBQ. lia. }
    apply wp_bind, wp_store; auto; [lia|rewrite (lim_shape b0 bq) by auto; apply FL; lia|]. intros b' SP. apply wp_ret. split; auto.
    cbn [qinv]. split; [apply SP|]. split; [eapply shape_trans; [eauto|apply SP]|].
    rewrite (vdiv_S (mpval b') j), (vdiv_S (U / v) j) by lia.
    rewrite (store_div bq b' j q') by (auto; lia). rewrite E1.
    rewrite <- limb_vlimb. rewrite (store_limb bq b' j q') by (auto; lia). rewrite EQ'. auto. }
  intros [q uh] [I1 ->]. rewrite Z.pow_0_r, Z.div_1_r in *. apply wp_ret. apply HF; auto.
  - eapply qinv_same; eauto.
  - unfold qinv in I1. destruct q_out, q; cbn; try contradiction; auto. destruct I1 as (_ & _ & E). rewrite Z.pow_0_r, !Z.div_1_r in E. auto.
Qed.
End Facts.
