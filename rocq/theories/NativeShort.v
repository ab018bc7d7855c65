(** Reading native integers from buffers with fewer limbs than the native type. *)
From Coq Require Import ZArith List Bool Lia.
Require Import Verif.Spec Verif.Monad Verif.Base Verif.Wp Verif.Pan Verif.ModelLimb Verif.LimbFacts Verif.LimbFacts2
  Verif.ModelBuf Verif.SpecBuf Verif.BufFacts Verif.BufFacts2 Verif.BufFacts3 Verif.BufProofs Verif.LimbProofs.
Import ListNotations.
Open Scope Z_scope.

Section Facts.
Context {c : cfg}.

(** Limb [i] starts right at the end of the byte buffer [b], and loading it reads
    zero: not so in debug mode if little-endian. *)
Definition ends_at (b : mp) (i : Z) : Prop :=
  mp_len b = i * LB /\ (kind_of b = KBE \/ kind_of b = KLE /\ debug c = false).

Lemma ends_nlimbs : forall b i, 0 <= i -> ends_at b i -> nlimbs b = i.
Proof.
  intros b i Hi [E _]. pose proof (nlimbs_spec b) as N. rewrite E in N. destruct LB_cases as [L|L]; rewrite L in *; lia.
Qed.

Lemma wp_load_end : forall b i (Q : Z -> Prop), mp_ok b -> 0 <= i -> ends_at b i -> Q (limb b i) -> wp (load_l b i) Q.
Proof.
  intros b i Q Hb Hi HE HQ. rewrite limb_out in HQ by (auto; rewrite (ends_nlimbs b i) by auto; lia).
  destruct HE as [HL HK]. pose proof LB_pos as LP.
  assert (ZZ : splice (zrepeat 0 LB) 0 [] = zrepeat 0 LB /\ splice (zrepeat 0 LB) LB [] = zrepeat 0 LB).
  { destruct LB_cases as [E|E]; rewrite E; split; reflexivity. }
  destruct ZZ as [Z1 Z2]. unfold load_l. apply wp_bind, wp_tick. destruct b as [l|l|l]; cbn [mp_len kind_of] in *.
  - unfold be_mp_load_l. apply wp_bind, wp_dassert; [apply Z.leb_le; lia|]. rewrite HL.
    apply wp_bind, wp_usub; [lia|]. rewrite Z.sub_diag. apply wp_mif; intros E; [apply Z.leb_le in E; lia|].
    unfold _be_mp_load_l_high_partial. apply wp_bind, wp_usub; [lia|]. rewrite Z.sub_0_r.
    pose proof (zlen_nonneg _ l). apply wp_bind, wp_slice; [lia|lia|]. apply wp_ret.
    cbn [Z.to_nat firstn skipn]. rewrite ?Z.sub_diag. cbn [Z.to_nat firstn]. rewrite Z2. unfold be_val, zrepeat.
    replace (le_val (rev (repeat 0 (Z.to_nat LB)))) with 0; auto.
    destruct LB_cases as [E2|E2]; rewrite E2; reflexivity.
  - destruct HK as [HK|[_ D]]; [discriminate|]. unfold le_mp_load_l. apply wp_bind. unfold dassert. rewrite D. apply wp_ret.
    apply wp_mif; intros E; [apply Z.leb_le in E; lia|].
    unfold _le_mp_load_l_high_partial. rewrite HL. apply wp_bind, wp_usub; [lia|]. rewrite Z.sub_diag.
    apply wp_bind, wp_slice; [lia|rewrite zlen_zrepeat by lia; lia|]. pose proof (zlen_nonneg _ l).
    apply wp_bind, wp_slice; [lia|lia|]. apply wp_ret. rewrite Z.sub_diag. cbn [Z.to_nat firstn]. rewrite Z1. unfold zrepeat.
    replace (le_val (repeat 0 (Z.to_nat LB))) with 0; auto.
    destruct LB_cases as [E2|E2]; rewrite E2; reflexivity.
  - destruct HK as [HK|[HK _]]; discriminate.
Qed.

Lemma load_past_pan : forall b i, mp_ok b -> 0 <= i <= 1 -> nlimbs b <= i -> ~ ends_at b i -> panics (load_l b i).
Proof.
  intros b i Hb Hi HN HE. pose proof LB_pos. pose proof UW_gt as UG. assert (L8 : LB <= 8) by (destruct LB_cases; lia).
  pose proof (nlimbs_spec b) as NS. assert (HL : mp_len b <= i * LB) by (destruct LB_cases as [L|L]; rewrite L in *; lia).
  assert (IB : i * LB <= LB) by (destruct LB_cases as [L|L]; rewrite L in *; lia).
  assert (IB' : 0 <= i * LB) by (destruct LB_cases as [L|L]; rewrite L in *; lia). unfold ends_at in HE.
  unfold load_l. apply pan_any. intros [] _. destruct b as [l|l|l]; cbn [mp_len kind_of] in *; pose proof (zlen_nonneg _ l).
  - assert (HK : zlen l < i * LB) by (destruct (Z.eq_dec (zlen l) (i * LB)); [exfalso; apply HE; auto|lia]).
    unfold be_mp_load_l. apply pan_any. intros [] _. apply pan_any. intros e HQ. apply usub_neg in HQ; [|lia|lia].
    apply pan_mif; intros E; [|apply Z.leb_gt in E; lia].
    unfold _be_mp_load_l_full. apply pan_any. intros s HS. apply pan_l, pan_slice. lia.
  - unfold le_mp_load_l. destruct (debug c) eqn:D.
    { apply pan_l, pan_dassert; [auto|]. apply Z.ltb_ge. lia. }
    assert (HK : zlen l < i * LB) by (destruct (Z.eq_dec (zlen l) (i * LB)); [exfalso; apply HE; auto|lia]).
    apply pan_any. intros [] _. apply pan_mif; intros E; [apply Z.leb_le in E; lia|].
    unfold _le_mp_load_l_high_partial. apply pan_any. intros e HQ. apply usub_neg in HQ; [|lia|lia].
    apply pan_l, pan_slice. rewrite zlen_zrepeat by lia. lia.
  - apply pan_znth. apply (Z.mul_le_mono_pos_r _ _ LB); lia.
Qed.

Lemma wp_try_into_end : forall sz b (Q : result Z unit -> Prop), mp_ok b -> (sz = 1 \/ sz = 2 \/ sz = 4 \/ sz = 8) ->
  ends_at b (ct_mp_nlimbs sz - 1) ->
  (mpval b < 256 ^ sz -> Q (Ok (mpval b))) -> (256 ^ sz <= mpval b -> Q (Err tt)) ->
  wp (try_into_native sz b) Q.
Proof.
  intros sz b Q Hok Hsz HN HQ0 HQ1. unfold try_into_native. pose proof LB_pos as HLB. pose proof B_gt as HB.
  pose proof (nlimbs_spec b) as NS. pose proof W_pos as HW. pose proof (mpval_nonneg b Hok) as V0.
  set (n := ct_mp_nlimbs sz) in *. set (nf := (sz - 1) mod LB + 1).
  assert (HSC : (sz <= LB /\ n = 1 /\ nf = sz) \/ (sz = 2 * LB /\ n = 2 /\ nf = LB)).
  { unfold n, nf. destruct LB_cases as [F|F]; rewrite F in *; destruct Hsz as [-> |[-> |[-> | ->]]]; unfold ct_mp_nlimbs; rewrite ?F;
    first [left; split; [lia|split; reflexivity]|right; split; [lia|split; reflexivity]]. }
  assert (SP : 0 < sz) by lia.
  pose proof (ends_nlimbs b (n - 1)) as NE.
  assert (NB : nlimbs b = n - 1) by (apply NE; [destruct HSC as [(_ & -> & _)|(_ & -> & _)]; lia|apply HN]).
  apply wp_bind, wp_for_empty; [lia|]. set (h := 0).
  assert (Hh : isl h) by apply isl_0.
  assert (HI : h = 0 <-> mpval b / B ^ n = 0) by (split; [intros _; apply vdiv_full; [auto|lia]|auto]).
  - apply wp_bind, wp_load_end; auto; [lia|]. apply wp_bind, wp_lsb_mask; [unfold W; lia|].
    rewrite land_lnot_mask; [|apply limb_isl|unfold W; lia].
    pose proof (limb_isl b (n - 1)) as LI. pf (pow2_gt0 (8 * nf)) as PN.
    pose proof (Z.mod_pos_bound (limb b (n - 1)) (2 ^ (8 * nf)) PN) as MB.
    pose proof (Z.mod_le (limb b (n - 1)) (2 ^ (8 * nf)) (proj1 LI) PN) as ML.
    apply wp_bind, wp_is_nonzero. { apply isl_lor; auto. unfold isl in *; lia. }
    assert (NP : 256 ^ sz = B ^ (n - 1) * 2 ^ (8 * nf)).
    { rewrite <- (pow256 nf) by lia. rewrite Bpow256 by lia. rewrite <- Z.pow_add_r.
      - f_equal. destruct HSC as [(? & -> & ->)|(? & -> & ->)]; lia.
      - apply mul_nn; lia.
      - lia. }
    pf (Bpow_pos (n - 1)) as BP1. pf (Bpow_pos n) as BPn.
    assert (IFF : Z.lor h (limb b (n - 1) - limb b (n - 1) mod 2 ^ (8 * nf)) = 0 <-> mpval b < 256 ^ sz).
    { rewrite Z.lor_eq_0_iff, HI. rewrite NP.
      pf (vdiv_S (mpval b) (n - 1)) as D. replace (n - 1 + 1) with n in D by lia.
      rewrite <- limb_vlimb in D. set (x := limb b (n - 1)) in *.
      assert (0 <= mpval b / B ^ n) by (apply Z.div_pos; lia).
      split.
      - intros [A1 A2]. apply Z.lt_nge. intros G.
        assert (2 ^ (8 * nf) <= mpval b / B ^ (n - 1)) by (apply Z.div_le_lower_bound; lia). lia.
      - intros L. assert (DL : mpval b / B ^ (n - 1) < 2 ^ (8 * nf)) by (apply Z.div_lt_upper_bound; lia).
        assert (2 ^ (8 * nf) <= B). { rewrite B_eq. apply Z.pow_le_mono_r; unfold W; lia. }
        assert (mpval b / B ^ n = 0) by (unfold isl in LI; nia). split; auto.
        rewrite Z.mod_small; unfold isl in LI; lia. }
    apply wp_mif; intros E.
    + apply wp_ret. apply HQ1. apply Z.le_ngt. intros C. apply IFF in C. rewrite C in E. discriminate.
    + assert (C : mpval b < 256 ^ sz).
      { apply IFF. destruct (Z.eqb_spec (Z.lor h (limb b (n - 1) - limb b (n - 1) mod 2 ^ (8 * nf))) 0); auto. discriminate. }
      rewrite land_mask by lia.
      assert (X : limb b (n - 1) mod 2 ^ (8 * nf) = mpval b / B ^ (n - 1)).
      { assert (DL : mpval b / B ^ (n - 1) < 2 ^ (8 * nf)) by (rewrite NP in C; apply Z.div_lt_upper_bound; lia).
        assert (0 <= mpval b / B ^ (n - 1)) by (apply Z.div_pos; lia).
        assert (2 ^ (8 * nf) <= B). { rewrite B_eq. apply Z.pow_le_mono_r; unfold W; lia. }
        unfold limb. rewrite (Z.mod_small _ B) by lia. apply Z.mod_small; lia. }
      rewrite X.
      assert (XS : forall j, 0 <= j -> 0 <= mpval b / B ^ j < 2 ^ (8 * sz)).
      { intros j Hj. pose proof (Bpow_pos j Hj). rewrite <- pow256 by lia.
        split; [apply Z.div_pos; lia|]. eapply Z.le_lt_trans; [|apply C]. apply Z.div_le_upper_bound; [lia|]. pf (mul_le_l (mpval b) 1 (B ^ j)). lia. }
      apply wp_bind.
      eapply wp_for_down with (I := fun i r => r = mpval b / B ^ i).
      * destruct HSC as [(? & -> & ->)|(? & -> & ->)]; lia.
      * apply Z.mod_small. apply XS. lia.
      * clear IFF HI Hh NE X E MB ML. intros i r Hi ->. apply wp_bind, wp_load_full; auto; [lia|destruct HN as [HN _]; rewrite HN; destruct HSC as [(_ & -> & _)|(_ & -> & _)]; lia|]. apply wp_ret.
        destruct HSC as [(? & -> & ->)|(? & EN & ->)]; [lia|].
        replace (Z.min W (8 * sz - 1)) with W by (unfold W; lia). rewrite <- B_eq.
        pf (vdiv_S (mpval b) i) as D. rewrite <- limb_vlimb in D.
        pf (XS i) as XI. pose proof (limb_isl b i) as LI'. unfold isl in LI'.
        pf (XS (i + 1)).
        assert (0 <= mpval b / B ^ (i + 1) * B) by (apply mul_nn; lia).
        rewrite (Z.mod_small (limb b i)).
        -- rewrite Z.mod_small by lia. rewrite B_eq at 2. rewrite lor_shift_add by (try exact LI'; lia).
           rewrite <- B_eq. lia.
        -- split; [lia|]. eapply Z.lt_le_trans; [apply LI'|]. rewrite B_eq. apply Z.pow_le_mono_r; [lia|]. unfold W. lia.
      * intros r ->. apply wp_ret. rewrite vdiv_0. auto.
Qed.
Lemma try_into_pan : forall sz b, mp_ok b -> (sz = 1 \/ sz = 2 \/ sz = 4 \/ sz = 8) ->
  nlimbs b < ct_mp_nlimbs sz -> ~ ends_at b (ct_mp_nlimbs sz - 1) -> panics (try_into_native sz b).
Proof.
  intros sz b Hb Hs HN HE. unfold try_into_native. apply pan_any. intros h _. apply pan_l, load_past_pan; auto; [|lia].
  unfold ct_mp_nlimbs. destruct LB_cases as [F|F]; rewrite ?F; destruct Hs as [-> |[-> |[-> | ->]]]; cbv; split; discriminate.
Qed.
End Facts.

Lemma native_short_correct : forall (c : cfg) sz b, mp_ok b -> (sz = 1 \/ sz = 2 \/ sz = 4 \/ sz = 8) ->
  let n := (sz + LB - 1) / LB in
  let works := n <= nlimbs b \/ mp_len b = (n - 1) * LB /\ (kind_of b = KBE \/ kind_of b = KLE /\ debug c = false) in
  (works -> returns (try_into_native sz b) (if mpval b <? 256 ^ sz then Ok (mpval b) else Err tt)) /\
  (~ works -> panics (try_into_native sz b)).
Proof.
  intros c sz b Hb Hs n works. split.
  - intros [HW|HW]; apply wp_ret_eq; [apply wp_try_into_native|apply wp_try_into_end]; auto;
      try (intros; rewrite (proj2 (Z.ltb_lt _ _)); auto; fail);
      intros; rewrite (proj2 (Z.ltb_ge _ _)); auto.
  - intros HW. apply try_into_pan; auto.
    + destruct (Z.lt_ge_cases (nlimbs b) n); auto. exfalso. apply HW. left. lia.
    + intros HE. apply HW. right. exact HE.
Qed.
