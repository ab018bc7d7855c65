(** Facts about the least common multiple. *)
From Coq Require Import ZArith List Bool Lia.
Require Import Verif.Spec Verif.Monad Verif.Base Verif.Wp Verif.Pan Verif.Wx Verif.ModelLimb Verif.LimbFacts Verif.LimbFacts2 Verif.ModelBuf Verif.SpecBuf
  Verif.BufFacts Verif.BufFacts2 Verif.BufFacts3 Verif.ModelCmp Verif.CmpFacts Verif.UpFacts Verif.AddFacts Verif.ModelShift Verif.ShiftFacts
  Verif.ModelMul Verif.MulFacts Verif.MulFacts2 Verif.ModelDiv Verif.SpecDiv Verif.DivFacts Verif.DivFacts2 Verif.DivFacts3 Verif.DivFacts4 Verif.DivProofs
  Verif.SpecMont Verif.MontFacts5 Verif.MontFacts6 Verif.ModelEuclid Verif.SpecEuclid Verif.EuclidFacts4 Verif.ModelLcm.
Import ListNotations.
Open Scope Z_scope.

Section Facts.
Context {c : cfg}.

Lemma wp_unscale_inline : forall T s X i (K : Z -> M T) (Q : T -> Prop), 0 <= s < W -> 0 <= i -> 0 <= X ->
  wp (K (vlimb (X / 2 ^ s) i)) Q ->
  wp (let! lo := lshr (vlimb X i) s in let! hi := lshl (Z.land (vlimb X (i + 1)) (2 ^ s - 1)) ((W - s) mod W) in K (Z.lor hi lo)) Q.
Proof.
  intros T s X i K Q Hs Hi HX HK.
  pose proof (wp_unscale_limb s X i (fun v => wp (K v) Q) (mk_ldiv 0 0 0) 0 0 (NE []) None 0 Hs Hi HX HK) as H.
  unfold unscale_val in H. cbn [dv_shift dv_rshift dv_mask] in H.
  apply wp_bind_inv in H. apply wp_bind. eapply wp_mono; [exact H|]. intros lo H1.
  apply wp_bind_inv in H1. apply wp_bind. eapply wp_mono; [exact H1|]. intros hi H2. exact H2.
Qed.

(** The high part of the product. *)
Lemma wp_prod_high : forall prod high g (Q : mp -> Prop), mp_ok prod -> mp_ok high -> mpval high = 0 ->
  0 < g -> g <= mp_len prod -> ct_mp_nlimbs g <= nlimbs high -> mpval prod / 256 ^ (mp_len prod - g) < 256 ^ mp_len high ->
  (forall h, becomes high h (mpval prod / 256 ^ (mp_len prod - g)) -> Q h) -> wp (lcm_prod_high prod high g) Q.
Proof.
  intros prod high g Q Hp Hh HV Hg Hgp Hgh HFH HQ. unfold lcm_prod_high. pose proof LB_pos as HLB. pose proof B_pos as HB.
  pose proof (nlimbs_spec prod) as NP. pose proof (nlimbs_spec high) as NH.
  pose proof (ct_mp_nlimbs_spec g ltac:(lia)) as NG. set (gn := ct_mp_nlimbs g) in *.
  rename Hgh into G1.
  apply wp_bind, wp_dassert; [apply Z.leb_le; auto|].
  apply wp_bind, wp_usub; [lia|]. set (sb := mp_len prod - g) in *.
  pose proof (Z.mod_pos_bound sb LB HLB) as R0. pf (Z.div_mod sb LB) as DM.
  assert (D0 : 0 <= sb / LB) by (apply Z.div_pos; lia).
  set (r := 8 * (sb mod LB)) in *. assert (HR : 0 <= r < W) by (unfold r, W; lia).
  apply wp_bind, wp_sub32; [lia|]. apply wp_bind, wp_lsb_mask; [lia|].
  set (k0 := sb / LB) in *.
  assert (G2 : k0 + gn <= nlimbs prod).
  { assert (HH : (k0 + gn) * LB < (nlimbs prod + 1) * LB); [|apply Z.mul_lt_mono_pos_r in HH; lia].
    destruct (Z.eq_dec (sb mod LB) 0) as [E0|E0]; [lia|]. 
    destruct (Z.lt_ge_cases (k0 + gn) (nlimbs prod + 1)) as [L|L]; [apply Z.mul_lt_mono_pos_r; lia|].
    exfalso. assert (HH : (nlimbs prod + 1) * LB <= (k0 + gn) * LB) by (apply Z.mul_le_mono_nonneg_r; lia). lia. }
  apply wp_bind, wp_dassert; [apply Z.leb_le; auto|].
  assert (GP : 0 < gn) by (destruct (Z.lt_ge_cases 0 gn); [auto|exfalso; assert (gn * LB <= 0 * LB) by (apply Z.mul_le_mono_nonneg_r; lia); lia]).
  pose proof (mpval_bound prod Hp) as BP.
  set (P := mpval prod) in *. set (H := P / 256 ^ sb).
  set (X := P / B ^ k0).
  assert (X0 : 0 <= X) by (apply Z.div_pos; [lia|apply Bpow_pos; auto]).
  assert (EH : H = X / 2 ^ r).
  { unfold H, X. rewrite <- div_mul_div by (try apply Bpow_pos; try apply pow2_gt0; lia). f_equal.
    rewrite Bpow256 by auto. unfold r. rewrite (Z.pow_mul_r 2 8) by lia. change (2 ^ 8) with 256.
    rewrite <- Z.pow_add_r by lia. f_equal. lia. }
  assert (HB0 : 0 <= H < 256 ^ g).
  { split; [apply Z.div_pos; [lia|apply p256_pos; lia]|]. apply Z.div_lt_upper_bound; [apply p256_pos; lia|].
    rewrite <- Z.pow_add_r by lia. replace (sb + g) with (mp_len prod) by lia. lia. }
  assert (HBG : H < B ^ gn).
  { eapply Z.lt_le_trans; [apply HB0|]. rewrite Bpow256 by lia. apply Z.pow_le_mono_r; lia. }
  assert (VX : forall i, 0 <= i -> vlimb X i = vlimb P (k0 + i)).
  { intros i Hi. unfold X. replace i with (k0 + i - k0) at 1 by lia. apply limb_of_div. lia. }
  apply wp_bind, wp_load; [auto|lia|]. rewrite limb_vlimb. fold P.
  apply wp_bind. apply wp_for with (I := fun i '(h, v) => upinv high 0 i (H mod B ^ i) h /\ v = vlimb X i).
  - lia.
  - split; [|rewrite VX by lia; f_equal; lia]. rewrite Z.pow_0_r, Z.mod_1_r. pose proof (upinv_init high Hh) as HI. rewrite HV in HI. exact HI.
  - intros i [h v] Hi [HU ->].
    assert (LD : wp (mif (k0 + i + 1 <? nlimbs prod) then load_l prod (k0 + i + 1) else ret 0) (fun v => v = vlimb X (i + 1))).
    { apply wp_mif; intros E.
      - apply Z.ltb_lt in E. apply wp_load; [auto|lia|]. rewrite VX by lia. rewrite limb_vlimb. fold P. f_equal. lia.
      - apply Z.ltb_ge in E. apply wp_ret. rewrite VX by lia. symmetry. replace (k0 + (i + 1)) with (k0 + i + 1) by lia.
        change (limb prod (k0 + i + 1) = 0). apply limb_out; auto. }
    apply wp_bind. eapply wp_mono; [exact LD|]. intros nv ->.
    apply (wp_unscale_inline _ r X i (fun x => let! h := store_l h i x in ret (h, vlimb X (i + 1)))); auto; try lia.
    rewrite <- EH. apply wp_bind. eapply wp_up_store; [exact HU|lia| |].
    + apply fit_limb; [|lia]. split; [lia|]. exact HFH.
    + intros h' HU'. apply wp_ret. split; [|auto]. rewrite vmod_S by lia. exact HU'.
  - intros [h v] [HU ->]. apply wp_bind. apply wp_dassert_m.
    { apply wp_bind, wp_lshr; [lia|]. apply wp_ret. apply Z.eqb_eq.
      assert (E : X / B ^ gn / 2 ^ r = 0).
      { pf (Bpow_pos gn). pf (pow2_gt0 r). rewrite <- div_mul_div, Z.mul_comm, div_mul_div, <- EH by lia. apply Z.div_small. lia. }
      pf (pow2_gt0 r). pf (Bpow_pos gn).
      pf (Z.div_pos X (B ^ gn)) as NN. 
      assert (XS : X / B ^ gn < 2 ^ r).
      { destruct (Z.lt_ge_cases (X / B ^ gn) (2 ^ r)) as [L|L]; auto. exfalso.
        pf (Z.div_le_mono (2 ^ r) (X / B ^ gn) (2 ^ r)) as Hm. rewrite Z.div_same in Hm by lia. lia. }
      unfold vlimb. rewrite Z.mod_small; [exact E|]. split; [auto|]. eapply Z.lt_trans; [exact XS|]. rewrite B_eq. apply Z.pow_lt_mono_r; lia. }
    apply wp_ret, HQ. destruct HU as (O & S & _ & V). split; [auto|split; [auto|]].
    rewrite V, Z.div_0_l, Z.mul_0_r, Z.add_0_r by (pf (Bpow_pos gn); lia). apply Z.mod_small. lia.
Qed.


Lemma gcd_or_one_pos : forall x y, 0 <= x -> 0 <= y -> 0 < gcd_or_one x y.
Proof.
  intros x y Hx Hy. unfold gcd_or_one. destruct (Z.eqb_spec x 0), (Z.eqb_spec y 0); cbn [andb]; try lia;
  apply (gcd_bounds x y Hx Hy (x + y + 1)); lia.
Qed.
Lemma gcd_or_one_lt : forall x y P, 0 <= x < P -> 0 <= y < P -> 1 < P -> gcd_or_one x y < P.
Proof.
  intros x y P Hx Hy HP. unfold gcd_or_one. destruct (Z.eqb_spec x 0), (Z.eqb_spec y 0); cbn [andb]; try lia;
  apply (gcd_bounds x y); lia.
Qed.
Lemma prod_div_gcd : forall x y, 0 <= x -> 0 <= y -> x * y = gcd_or_one x y * Z.lcm x y.
Proof.
  intros x y Hx Hy. unfold gcd_or_one. destruct (Z.eqb_spec x 0), (Z.eqb_spec y 0); cbn [andb]; subst; try reflexivity.
  - rewrite Z.lcm_0_l. lia.
  - rewrite Z.lcm_0_r. lia.
  - pose proof (Z.gcd_nonneg x y) as GN. assert (GZ : Z.gcd x y <> 0) by (intros E; apply Z.gcd_eq_0_l in E; lia).
    unfold Z.lcm. destruct (Z.gcd_divide_r x y) as [q Hq]. rewrite Hq at 3. rewrite Z.div_mul by auto.
    assert (0 <= q). { destruct (Z.lt_ge_cases q 0) as [L|L]; auto. pf (mul_lt_l (Z.gcd x y) q 0). lia. }
    rewrite Z.abs_eq by (apply mul_nn; lia). rewrite Hq at 1. ring.
Qed.

Lemma align_ge : forall n, 0 <= n -> n <= ct_mp_limbs_align_len n.
Proof. intros n Hn. unfold ct_mp_limbs_align_len. pose proof (ct_mp_nlimbs_spec n Hn). lia. Qed.

Lemma backing_ok : forall scr op1 n, kind_of scr = kind_of op1 -> 0 <= n -> n <= mp_len scr ->
  n_backing_elements_for_len op1 n <= backing_len scr.
Proof.
  intros scr op1 n HK Hn HL. pose proof LB_pos.
  destruct scr as [l|l|l], op1 as [m|m|m]; try discriminate; cbn [n_backing_elements_for_len backing_len mp_len] in *; auto.
  unfold ne_elements_for_len, ct_mp_limbs_align_len. rewrite Z.mod_mul, Z.div_mul by lia. cbn [Z.eqb negb].
  pose proof (ct_mp_nlimbs_spec n Hn) as NS.
  assert (HH : ct_mp_nlimbs n * LB < (zlen l + 1) * LB) by lia. apply Z.mul_lt_mono_pos_r in HH; lia.
Qed.

Definition lcm_post (res op0 op1 scr : mp) (v : Z) (o : result unit lcm_err * mp * mp * mp * mp) : Prop :=
  let '(r, res', op0', op1', scr') := o in
  r = Ok tt /\ becomes res res' v /\ mp_ok op0' /\ same_shape op0 op0' /\ mp_ok op1' /\ same_shape op1 op1' /\
  mp_ok scr' /\ same_shape scr scr'.

Lemma align_le : forall b n, kind_of b = KNE -> 0 <= n <= mp_len b -> ct_mp_limbs_align_len n <= mp_len b.
Proof.
  intros [l|l|l] n K Hn; try discriminate. cbn [mp_len] in *. unfold ct_mp_limbs_align_len. pose proof LB_pos. pf (ct_mp_nlimbs_spec n) as NS.
  assert (HH : ct_mp_nlimbs n * LB < (zlen l + 1) * LB) by lia.
  apply Z.mul_lt_mono_pos_r in HH; [|lia]. apply Z.mul_le_mono_nonneg_r; lia.
Qed.
Lemma align_mod : forall n, ct_mp_limbs_align_len n mod LB = 0.
Proof. intros n. pose proof LB_pos. unfold ct_mp_limbs_align_len. apply Z.mod_mul. lia. Qed.
Lemma align_same : forall n, 0 <= n -> n mod LB = 0 -> ct_mp_limbs_align_len n = n.
Proof.
  intros n Hn E. pose proof LB_pos. unfold ct_mp_limbs_align_len. pf (ct_mp_nlimbs_spec n) as NS. pf (Z.div_mod n LB) as DM.
  assert (n / LB * LB <= ct_mp_nlimbs n * LB) by lia.
  assert (HH : ct_mp_nlimbs n * LB < (n / LB + 1) * LB) by lia. apply Z.mul_lt_mono_pos_r in HH; [|lia].
  assert (n / LB * LB < (ct_mp_nlimbs n + 1) * LB) as HH2 by lia. apply Z.mul_lt_mono_pos_r in HH2; [|lia].
  assert (E2 : ct_mp_nlimbs n = n / LB) by lia. rewrite E2. lia.
Qed.
Lemma elements_align : forall n, 0 <= n -> ne_elements_for_len (ct_mp_limbs_align_len n) = ne_elements_for_len n.
Proof.
  intros n Hn. unfold ne_elements_for_len. rewrite (align_same (ct_mp_limbs_align_len n)); auto.
  - pose proof (align_ge n Hn). lia.
  - apply align_mod.
Qed.

(** The length of a buffer of the kind of [b] holding [n] bytes. *)
Definition whole_len (b : mp) (n : Z) : Z := match b with NE _ => ct_mp_limbs_align_len n | _ => n end.
Lemma whole_ge : forall b n, 0 <= n -> n <= whole_len b n.
Proof. intros [l|l|l] n Hn; cbn; try lia. apply align_ge; auto. Qed.
Lemma whole_le : forall b n, 0 <= n <= mp_len b -> whole_len b n <= mp_len b.
Proof. intros b n Hn. destruct b; cbn [whole_len]; try lia. apply align_le; auto. Qed.
Lemma whole_kind : forall b b' n, kind_of b = kind_of b' -> whole_len b n = whole_len b' n.
Proof. intros [l|l|l] [m|m|m] n E; cbn in *; congruence. Qed.

(** Without debug assertions, also numbers of bytes making up no whole limbs can be taken. *)
Lemma wp_take_gen : forall b n (Q : mp * mp -> Prop), mp_ok b -> 0 <= n <= mp_len b ->
  (kind_of b = KNE -> debug c = true -> n mod LB = 0) ->
  (forall hi lo, mp_ok hi -> mp_ok lo -> kind_of hi = kind_of b -> kind_of lo = kind_of b ->
     mp_len lo = whole_len b n -> mp_len hi = mp_len b - whole_len b n -> mpval lo = mpval b mod 256 ^ whole_len b n -> mpval hi = mpval b / 256 ^ whole_len b n ->
     Q (hi, lo)) -> wp (mp_take b n) Q.
Proof.
  intros b n Q Hb Hn HD HQ. assert (W := wp_mp_take b (whole_len b n) Q Hb).
  pose proof (whole_ge b n) as WG. pose proof (whole_le b n Hn) as WL.
  destruct b as [l|l|l]; cbn [whole_len] in *; try (apply W; cbn; auto; fail).
  assert (W' : wp (mp_take (NE l) (ct_mp_limbs_align_len n)) Q). { apply W; auto; [lia|]. right. apply align_mod. }
  clear W. cbn [mp_take] in *. rewrite elements_align in W' by lia. apply wp_bind_inv in W'.
  unfold dassert in *. destruct (debug c) eqn:D.
  - apply wp_bind. rewrite HD by auto. rewrite align_mod in W'. exact W'.
  - apply wp_bind. exact W'.
Qed.

Lemma wx_bind_assoc : forall A C D e (m : M A) (f : A -> M C) (g : C -> M D) Q,
  wx e (bind (bind m f) g) Q -> wx e (bind m (fun a => bind (f a) g)) Q.
Proof.
  intros A C D e [t [a|]] f g Q; unfold wx, bind; cbn; auto. destruct (f a) as [t1 [b|]]; cbn; auto.
Qed.

Lemma wp_dassert_d : forall b (Q : unit -> Prop), (debug c = true -> b = true) -> Q tt -> wp (dassert b) Q.
Proof. intros b Q H HQ. unfold dassert. destruct (debug c); [rewrite H by auto|]; exact HQ. Qed.

Lemma nlimbs_mono : forall n m, 0 <= n <= m -> ct_mp_nlimbs n <= ct_mp_nlimbs m.
Proof.
  intros n m H. pose proof LB_pos. pf (ct_mp_nlimbs_spec n) as A. pf (ct_mp_nlimbs_spec m) as C0.
  assert (HH : ct_mp_nlimbs n * LB < (ct_mp_nlimbs m + 1) * LB) by lia. apply Z.mul_lt_mono_pos_r in HH; lia.
Qed.
Lemma wp_prod_high_len : forall prod high g (Q : mp -> Prop), mp_ok prod -> mp_ok high -> mpval high = 0 ->
  0 < g -> g <= mp_len prod -> g <= mp_len high ->
  (forall h, becomes high h (mpval prod / 256 ^ (mp_len prod - g)) -> Q h) -> wp (lcm_prod_high prod high g) Q.
Proof.
  intros prod high g Q Hp Hh HV Hg Hgp Hgh HQ. apply wp_prod_high; auto.
  - apply nlimbs_mono. lia.
  - pose proof (mpval_bound prod Hp). pf (p256_pos (mp_len prod - g)). apply Z.div_lt_upper_bound; [lia|]. rewrite <- Z.pow_add_r by lia.
    eapply Z.lt_le_trans; [apply H|]. apply Z.pow_le_mono_r; lia.
Qed.
Lemma lcm_high_fits : forall op0 op1 n0 n1 g, mp_ok op0 -> mp_ok op1 -> mut_compat op0 op1 -> 0 < g <= mp_len op0 -> 0 < n0 -> 0 < n1 <= mp_len op1 ->
  g <= n0 + n1 -> (mp_len op1 < g -> g = n0) -> 0 <= mpval op0 < 256 ^ n0 -> 0 <= mpval op1 < 256 ^ n1 ->
  mpval op0 * mpval op1 / 256 ^ (whole_len op1 (n0 + n1) - g) < 256 ^ mp_len op1 /\ ct_mp_nlimbs g <= nlimbs op1 /\ (kind_of op1 = KNE -> g <= mp_len op1).
Proof.
  intros op0 op1 n0 n1 g H0 H1 [HC _] Hg P0 P1 GN FG V0 V1. pose proof LB_pos as HLB. pf (p256_pos n0) as Q0. pf (p256_pos n1) as Q1.
  pf (whole_ge op1 (n0 + n1)) as WN.
  destruct (Z.le_gt_cases g (mp_len op1)) as [L|L].
  - split; [|split; auto; apply nlimbs_mono; lia].
    pf (p256_pos (whole_len op1 (n0 + n1) - g)) as QN. apply Z.div_lt_upper_bound; [lia|]. rewrite <- Z.pow_add_r by lia.
    apply Z.lt_le_trans with (256 ^ (n0 + n1)). { rewrite Z.pow_add_r by lia. apply Z.mul_lt_mono_nonneg; lia. }
    apply Z.pow_le_mono_r; lia.
  - destruct HC as [HC|(K & LK & VK)]; [lia|]. specialize (FG L). subst g.
    assert (KN : kind_of op1 <> KNE).
    { intros K1. destruct op0 as [a|a|a]; try discriminate. destruct op1 as [b|b|b]; try discriminate. cbn [mp_len] in *.
      assert (A1 : zlen b * LB < zlen a * LB) by lia. apply Z.mul_lt_mono_pos_r in A1; [|lia].
      assert (A2 : zlen a * LB < (zlen b + 1) * LB) by lia. apply Z.mul_lt_mono_pos_r in A2; lia. }
    assert (EW : whole_len op1 (n0 + n1) = n0 + n1) by (destruct op1; try reflexivity; contradiction).
    split; [|split; [|contradiction]].
    + rewrite EW. replace (n0 + n1 - n0) with n1 by lia. apply Z.div_lt_upper_bound; [lia|]. rewrite Z.mul_comm. apply Z.mul_lt_mono_nonneg; lia.
    + apply Z.le_trans with (ct_mp_nlimbs (mp_len op0)); [apply nlimbs_mono; lia|].
      destruct op0 as [a|a|a]; try discriminate. cbn [mp_len] in *. pf (ct_mp_nlimbs_spec (zlen a * LB)) as A. pose proof (nlimbs_spec op1) as C0.
      assert (HH : ct_mp_nlimbs (zlen a * LB) * LB < (zlen a + 1) * LB) by lia. apply Z.mul_lt_mono_pos_r in HH; [|lia].
      assert (HX : (zlen a - 1) * LB < nlimbs op1 * LB) by lia. apply Z.mul_lt_mono_pos_r in HX; lia.
Qed.

Lemma wx_lcm : forall res op0 l0 op1 l1 scr, mp_ok res -> mp_ok op0 -> mp_ok op1 -> mp_ok scr -> kind_of scr = kind_of op1 ->
  let n0 := Z.min l0 (mp_len op0) in let n1 := Z.min l1 (mp_len op1) in
  0 < n0 -> 0 < n1 -> mut_compat op0 op1 -> (debug c = true -> mp_len op0 = mp_len op1) -> gcd_len_ok (Z.max (mp_len op0) (mp_len op1)) ->
  Z.max n0 n1 <= mp_len op0 ->
  mpval op0 < 256 ^ n0 -> mpval op1 < 256 ^ n1 -> n0 + n1 <= mp_len res -> n0 + n1 <= mp_len scr ->
  (kind_of op1 = KNE -> debug c = true -> (n0 + n1) mod LB = 0) ->
  let short := mp_len res + Z.max n0 n1 <? whole_len op1 (n0 + n1) + whole_len op1 (Z.max n0 n1) in
  wx short (ct_lcm_mp_mp res op0 l0 op1 l1 scr) (fun o => short = false /\ lcm_post res op0 op1 scr (Z.lcm (mpval op0) (mpval op1)) o).
Proof.
  intros res op0 l0 op1 l1 scr Hr H0 H1 Hs HK n0 n1 P0 P1 HC HL HG GG0 V0 V1 LR LS HA short. unfold ct_lcm_mp_mp. fold n0 n1.
  pose proof LB_pos as HLB. pose proof B_pos as HB. pose proof (mpval_nonneg op0 H0) as N0. pose proof (mpval_nonneg op1 H1) as N1.
  assert (LE0 : n0 <= mp_len op0) by (unfold n0; lia). assert (LE1 : n1 <= mp_len op1) by (unfold n1; lia).
  assert (SH1 : forall _ : unit, mp_len res + Z.max n0 n1 < whole_len op1 (n0 + n1) + whole_len op1 (Z.max n0 n1) -> short = true).
  { intros _ X. apply Z.ltb_lt, X. }
  assert (SH2 : forall _ : unit, whole_len op1 (n0 + n1) + whole_len op1 (Z.max n0 n1) <= mp_len res + Z.max n0 n1 -> short = false).
  { intros _ X. apply Z.ltb_ge, X. }
  clearbody short n0 n1.
  apply wx_mif; intros E. { apply orb_true_iff in E. rewrite !Z.eqb_eq in E. lia. } clear E.
  apply wx_bind_assoc. apply wx_bind, wp_mut_compat; auto. apply wx_bind, wp_tick.
  apply wx_bind, wp_dassert_d; [intros HD; apply Z.eqb_eq; auto|]. clear HL.
  apply wx_mif; intros E. { apply Z.ltb_lt in E. lia. } clear E.
  apply wx_mif; intros E. { apply Z.ltb_lt in E. pf (backing_ok scr op1 (n0 + n1) HK) as BO. lia. } clear E.
  set (g := Z.max n0 n1) in *. assert (Hg : 0 < g) by lia. rename GG0 into G0.
  assert (FG : mp_len op1 < g -> g = n0) by lia.
  assert (GN0 : n0 <= g) by lia. assert (GN1 : n1 <= g) by lia. assert (GNN : g <= n0 + n1) by lia. clearbody g.
  apply wx_bind. apply wp_take_gen; auto; [lia|rewrite HK; auto|]. clear HA.
  pf (whole_ge op1 (n0 + n1)) as WN. pf (whole_le scr (n0 + n1)) as LSN. rewrite (whole_kind scr op1) in LSN by auto.
  rewrite (whole_kind scr op1) by auto. remember (whole_len op1 (n0 + n1)) as N eqn:EN.
  intros hi p Ohi Op Khi Kp Lp Lhi Vp Vhi.
  apply wx_bind, wp_copy_from; auto.
  { rewrite Lp. eapply Z.lt_le_trans; [exact V0|]. apply Z.pow_le_mono_r; lia. }
  intros p1 O1 S1 E1. apply wx_bind, wp_shrink_to; auto; [lia|]. intros o1 Oo1 Ko1 Lo1 Vo1.
  apply wx_bind, wp_mul_trunc; auto; [rewrite (shape_len _ _ S1); lia|].
  intros p2 (O2 & S2 & E2). rewrite (shape_len _ _ S1), Lp, E1, Vo1 in E2.
  assert (PB0 : 0 <= mpval op0 * mpval op1 < 256 ^ (n0 + n1)).
  { split; [apply mul_nn; auto|]. rewrite Z.pow_add_r by lia. pf (p256_pos n0). pf (p256_pos n1).
    apply Z.mul_lt_mono_nonneg; lia. }
  assert (PB : 0 <= mpval op0 * mpval op1 < 256 ^ N).
  { split; [lia|]. eapply Z.lt_le_trans; [apply PB0|]. apply Z.pow_le_mono_r; lia. }
  rewrite (Z.mod_small (mpval op0)) in E2 by lia. rewrite Z.mod_small in E2 by auto.
  apply wx_bind, wp_gcd; auto; [lia|].
  intros gb z (Og & Sg & Eg) (Oz & Sz & Ez).
  set (x := mpval op0) in *. set (y := mpval op1) in *. set (G := gcd_or_one x y) in *.
  pose proof (gcd_or_one_pos x y N0 N1) as GP. fold G in GP.
  pose proof (prod_div_gcd x y N0 N1) as PG. fold G in PG.
  assert (GL : G < 256 ^ g).
  { apply gcd_or_one_lt.
    - split; [auto|]. eapply Z.lt_le_trans; [exact V0|]. apply Z.pow_le_mono_r; lia.
    - split; [auto|]. eapply Z.lt_le_trans; [exact V1|]. apply Z.pow_le_mono_r; lia.
    - change 1 with (256 ^ 0). apply Z.pow_lt_mono_r; lia. }
  apply wx_bind, wp_dassert_m.
  { apply wp_bind, wp_is_zero_mp; auto. apply wp_ret. rewrite Eg. replace (G =? 0) with false by (symmetry; apply Z.eqb_neq; lia). reflexivity. }
  apply wx_bind, wp_find_last_set_bit; auto. rewrite Eg. set (w := nbits G).
  pose proof (nbits_spec G GP) as WS. fold w in WS. pose proof (nbits_pos G GP) as WP. fold w in WP.
  assert (WL : w <= 8 * g). { apply nbits_le; [lia|]. split; [lia|]. rewrite <- pow256 by lia. exact GL. }
  apply wx_bind, wp_usub; [lia|]. set (s := 8 * g - w) in *.
  assert (U0 : 16 * mp_len op0 < 2 ^ UW) by apply H0.
  assert (US : isu s) by (unfold isu; lia). assert (UWd : isu w) by (unfold isu; lia).
  pf (pow2_gt0 s) as PS. pf (pow2_gt0 w) as PW.
  set (D := G * 2 ^ s).
  assert (WW : 2 ^ w * 2 ^ s = 256 ^ g). { rewrite <- Z.pow_add_r by lia. rewrite pow256 by lia. f_equal. lia. }
  assert (DB : 256 ^ (g - 1) <= D < 256 ^ g).
  { split.
    - apply Z.le_trans with (2 ^ (w - 1) * 2 ^ s).
      + rewrite <- Z.pow_add_r by lia. rewrite pow256 by lia. apply Z.pow_le_mono_r; lia.
      + unfold D. apply Z.mul_le_mono_nonneg_r; lia.
    - unfold D. rewrite <- WW. apply Z.mul_lt_mono_pos_r; lia. }
  apply wx_bind, wp_lshift; auto. rewrite Eg. fold D. intros gb' (Og' & Sg' & Eg').
  rewrite Z.mod_small in Eg'.
  2:{ split; [unfold D; lia|]. eapply Z.lt_le_trans; [apply DB|]. rewrite (shape_len _ _ Sg). apply Z.pow_le_mono_r; lia. }
  assert (LP2 : mp_len p2 = N) by (rewrite (shape_len _ _ S2), (shape_len _ _ S1); auto).
  assert (FH : x * y / 256 ^ (N - g) < 256 ^ mp_len op1 /\ ct_mp_nlimbs g <= nlimbs op1 /\ (kind_of op1 = KNE -> g <= mp_len op1)).
  { rewrite EN. apply (lcm_high_fits op0 op1 n0 n1 g); auto. }
  apply wx_bind. apply wp_prod_high; auto; [lia|unfold nlimbs; rewrite (shape_len _ _ Sz); apply FH|rewrite LP2, E2, (shape_len _ _ Sz); apply FH|].
  intros h (Oh & Sh & Eh). rewrite LP2, E2 in Eh.
  assert (LH : mp_len h = mp_len op1) by (rewrite (shape_len _ _ Sh), (shape_len _ _ Sz); auto).
  assert (HB0 : 0 <= x * y / 256 ^ (N - g) < 256 ^ g).
  { pf (p256_pos (N - g)). split; [apply Z.div_pos; lia|]. apply Z.div_lt_upper_bound; [lia|].
    rewrite <- Z.pow_add_r by lia. replace (N - g + g) with (N) by lia. lia. }
  apply wx_bind, wp_clear_above; auto; [lia|]. intros h1 (Oh1 & Sh1 & Eh1). rewrite Eh in Eh1. rewrite Z.mod_small in Eh1 by auto.
  apply wx_bind, wp_usub; [lia|]. replace (8 * g - s) with w by lia.
  apply wx_bind, wp_rshift; auto. intros h2 (Oh2 & Sh2 & Eh2). rewrite Eh1 in Eh2.
  assert (HV2 : mpval h2 = x * y * 2 ^ s / 256 ^ (N)).
  { rewrite Eh2. pf (p256_pos (N - g)). rewrite <- div_mul_div by lia.
    assert (E : 256 ^ (N) = 256 ^ (N - g) * 2 ^ w * 2 ^ s).
    { rewrite <- Z.mul_assoc, WW, <- Z.pow_add_r by lia. f_equal. lia. }
    rewrite E. rewrite Z.div_mul_cancel_r; lia. }
  assert (HB2 : 0 <= mpval h2 < 256 ^ g).
  { split; [apply mpval_nonneg; auto|]. rewrite Eh2. apply Z.div_lt_upper_bound; [lia|].
    pf (mul_le_l (256 ^ g) 1 (2 ^ w)). lia. }
  assert (LH2 : mp_len h2 = mp_len op1). { rewrite (shape_len _ _ Sh2), (shape_len _ _ Sh1). auto. }
  apply wx_bind, wp_shrink_to; [auto|lia|lia|]. intros h3 Oh3 Kh3 Lh3 Vh3.
  apply wx_bind, wp_lshift; auto. intros lo (Olo & Slo & Elo). rewrite LP2, E2 in Elo.
  assert (Llo : mp_len lo = N) by (rewrite (shape_len _ _ Slo); auto).
  assert (Klo : kind_of lo = kind_of op1).
  { destruct Slo as [-> _], S2 as [-> _], S1 as [-> _]. congruence. }
  assert (Kh2 : kind_of h2 = kind_of op1).
  { destruct Sh2 as [-> _], Sh1 as [-> _], Sh as [-> _], Sz as [-> _]. reflexivity. }
  apply wx_bind, wp_divisor_new; auto.
  { unfold isl. lia. }
  { intros _ E. rewrite Eg' in E. pose proof DB. pf (p256_pos (g - 1)). lia. }
  { rewrite Eg'. pf (p256_pos (g - 1)). lia. }
  intros _ dv Hdv Edv Edd.
  assert (EDv : dval dv = D). { unfold dval, dv_dec0. rewrite Edv, Edd. rewrite Eg'. lia. }
  assert (BL : byte_len D g) by (split; [lia|auto]).
  pose proof (divisor_len dv D g Hdv EDv BL) as DL.
  pf (p256_pos (N)) as PNN.
  assert (EU : uval (Some h3) lo = x * y * 2 ^ s).
  { unfold uval. cbn [uhval]. rewrite Vh3, HV2, Llo, Elo. pose proof (Z.div_mod (x * y * 2 ^ s) (256 ^ (N))). lia. }
  assert (ED : x * y * 2 ^ s = D * Z.lcm x y) by (unfold D; rewrite PG; ring).
  assert (D0 : 0 < D) by (unfold D; apply Z.mul_pos_pos; lia).
  assert (EQ : x * y * 2 ^ s / D = Z.lcm x y). { rewrite ED, Z.mul_comm. apply Z.div_mul. lia. }
  assert (EM : (x * y * 2 ^ s) mod D = 0). { rewrite ED, Z.mul_comm. apply Z.mod_mul. lia. }
  clear FG. assert (LQ : Z.lcm x y < 256 ^ mp_len res).
  { clear FH. apply Z.le_lt_trans with (x * y).
    - pose proof (Z.lcm_nonneg x y). rewrite PG. pf (Z.mul_le_mono_nonneg_r 1 G (Z.lcm x y)). lia.
    - eapply Z.lt_le_trans; [apply PB0|]. apply Z.pow_le_mono_r; lia. }
  assert (EL3 : mp_len h3 = whole_len op1 (Z.min g (mp_len op1))).
  { rewrite Lh3, <- (whole_kind h2 op1) by auto. unfold shrunk_len. rewrite LH2. destruct h2; reflexivity. }
  assert (L3 : mp_len h3 <= mp_len h2). { rewrite EL3, LH2. apply whole_le. pose proof (mp_len_nonneg op1). lia. }
  assert (L4 : mp_len h3 <= whole_len op1 g).
  { rewrite EL3. destruct FH as (_ & _ & FK). destruct op1; cbn [whole_len kind_of] in *; try lia. rewrite Z.min_l by auto. lia. }
  assert (L5 : mp_len h3 = whole_len op1 g \/ (N + mp_len h3 <= mp_len res + g /\ N + whole_len op1 g <= mp_len res + g)).
  { rewrite EL3. destruct (Z.le_gt_cases g (mp_len op1)) as [GL1|GL1]; [left; rewrite Z.min_l by auto; auto|]. right.
    destruct FH as (_ & _ & FK). pose proof (mp_len_nonneg op1). destruct op1; cbn [whole_len kind_of] in *; try lia. exfalso. specialize (FK eq_refl). lia. }
  apply wx_bind. apply wp_div_mp_mp; auto.
  - split; auto. split; auto. congruence.
  - right. left. rewrite EU, EDv, EQ. exact LQ.
  - cbn [uhlen]. intros SH. rewrite DL, Llo in SH. replace short with true; [apply pan_wx, pan_panic|].
    symmetry. apply (SH1 tt). clear - SH L5 L4. destruct L5 as [L5|L5]; lia.
  - intros NSH _ uh ul q Oul Sul Suh Sq Eu Qq. rewrite EU, EDv, ?EM in *.
    destruct uh as [uh|]; [|contradiction]. destruct q as [q|]; [|contradiction].
    destruct Suh as [Ouh Suh]. destruct Sq as [Oq Sq]. cbn [q_is] in Qq. rewrite EQ in Qq.
    unfold uval in Eu. cbn [uhval] in Eu. pose proof (mpval_nonneg ul Oul) as NU. pose proof (mpval_nonneg uh Ouh) as NH.
    pf (p256_pos (mp_len ul) (mp_len_nonneg ul)) as PU. pf (mul_nn (256 ^ mp_len ul) (mpval uh)) as NM.
    assert (SF : short = false). { apply (SH2 tt). cbn [uhlen] in NSH. rewrite DL, Llo in NSH. clear - NSH L5. destruct L5 as [L5|L5]; lia. }
    clear - SF Eu NU NH PU NM Oul Ouh Sul Suh Oq Sq Qq Olo Klo LP2 Llo Kh2 Kh3 LH2 L3 Og' Sg' Sg HK Oh2 Hs Lp Lh3 Oh3 LS HLB Vh3 H1 H0 res op0 op1 scr LSN.
    assert (EU0 : mpval ul = 0) by lia.
    assert (EH0 : mpval uh = 0). { destruct (Z.eq_dec (mpval uh) 0); auto. pf (Z.mul_pos_pos (256 ^ mp_len ul) (mpval uh)). lia. }
    apply wx_bind, wp_dassert_m. { apply wp_bind, wp_is_zero_mp; auto. apply wp_ret. rewrite EU0. rewrite lc_unwrap_chc. reflexivity. }
    apply wx_bind, wp_dassert_m. { apply wp_bind, wp_is_zero_mp; auto. apply wp_ret. rewrite EH0. rewrite lc_unwrap_chc. reflexivity. }
    apply wx_ret. split; [exact SF|]. unfold lcm_post.
    destruct (unshrink_spec h2 uh) as (OU & SU & _); auto. { destruct Suh as [-> _]. congruence. } { rewrite (shape_len _ _ Suh). lia. }
    destruct (unshrink_spec scr ul) as (OS & SS & _); auto. { destruct Sul as [-> _]. congruence. } { rewrite (shape_len _ _ Sul). lia. }
    split; [auto|]. split; [split; auto|]. split; [auto|]. split; [eapply shape_trans; eauto|]. split; [auto|].
    split; [|auto]. eapply shape_trans; [|exact SU]. split; [congruence|lia].
  - intros _ OV. exfalso. rewrite EU, EDv, EQ in OV. unfold qover in OV. clear - OV LQ.
    pose proof (p256_B (mp_len res) (mp_len_nonneg res)). unfold nlimbs in OV. lia.
Qed.



Lemma wp_lcm : forall res op0 l0 op1 l1 scr, mp_ok res -> mp_ok op0 -> mp_ok op1 -> mp_ok scr -> kind_of scr = kind_of op1 ->
  let n0 := Z.min l0 (mp_len op0) in let n1 := Z.min l1 (mp_len op1) in
  0 < n0 -> 0 < n1 -> mp_len op0 = mp_len op1 -> gcd_len_ok (mp_len op0) ->
  mpval op0 < 256 ^ n0 -> mpval op1 < 256 ^ n1 -> n0 + n1 <= mp_len res -> n0 + n1 <= mp_len scr ->
  (kind_of op1 = KNE -> (n0 + n1) mod LB = 0 /\ n0 + n1 + ct_mp_limbs_align_len (Z.max n0 n1) <= mp_len res + Z.max n0 n1) ->
  wp (ct_lcm_mp_mp res op0 l0 op1 l1 scr) (lcm_post res op0 op1 scr (Z.lcm (mpval op0) (mpval op1))).
Proof.
  intros res op0 l0 op1 l1 scr Hr H0 H1 Hs HK n0 n1 P0 P1 HL HG V0 V1 LR LS HA.
  assert (NS : (mp_len res + Z.max n0 n1 <? whole_len op1 (n0 + n1) + whole_len op1 (Z.max n0 n1)) = false).
  { apply Z.ltb_ge. destruct op1; cbn [whole_len kind_of] in *; try lia. destruct HA as [A1 A2]; auto. rewrite align_same by (auto; lia). lia. }
  apply wp_wx. rewrite <- NS at 1. eapply wx_mono; [apply wx_lcm; auto|].
  - split; left; lia.
  - rewrite <- HL, Z.max_id. auto.
  - fold n0 n1. unfold n0, n1. lia.
  - intros K _. apply HA, K.
  - intros o [_ H]. exact H.
Qed.


Lemma wp_lcm_zero : forall res op0 l0 op1 l1 scr, mp_ok res -> Z.min l0 (mp_len op0) = 0 \/ Z.min l1 (mp_len op1) = 0 ->
  wp (ct_lcm_mp_mp res op0 l0 op1 l1 scr)
     (fun o => exists res', o = (Ok tt, res', op0, op1, scr) /\ becomes res res' 0).
Proof.
  intros res op0 l0 op1 l1 scr Hr HZ. unfold ct_lcm_mp_mp. apply wp_mif; intros E.
  - apply wp_bind, wp_clear_above; auto; [lia|]. intros r (Or & Sr & Er). apply wp_ret. exists r. split; [auto|split; [auto|split; [auto|]]].
    rewrite Er, Z.pow_0_r. apply Z.mod_1_r.
  - apply orb_false_iff in E. rewrite !Z.eqb_neq in E. lia.
Qed.

Lemma wp_lcm_incompat : forall res op0 l0 op1 l1 scr, mp_ok op0 -> mp_ok op1 -> Z.min l0 (mp_len op0) <> 0 -> Z.min l1 (mp_len op1) <> 0 ->
  ~ mut_compat op0 op1 ->
  wp (ct_lcm_mp_mp res op0 l0 op1 l1 scr) (fun o => o = (Err LcmInconsistentOperandLengths, res, op0, op1, scr)).
Proof.
  intros res op0 l0 op1 l1 scr H0 H1 N0 N1 HN. unfold ct_lcm_mp_mp. apply wp_mif; intros E.
  { apply orb_true_iff in E. rewrite !Z.eqb_eq in E. lia. }
  apply wp_bind_assoc. apply wp_bind, wp_mut_compat_not; auto. apply wp_bind, wp_tick. apply wp_ret. auto.
Qed.

Lemma backing_short : forall scr op1 n, kind_of scr = kind_of op1 -> 0 <= n -> mp_len scr < n ->
  backing_len scr < n_backing_elements_for_len op1 n.
Proof.
  intros scr op1 n HK Hn HL. pose proof LB_pos.
  destruct scr as [l|l|l], op1 as [m|m|m]; try discriminate; cbn [n_backing_elements_for_len backing_len mp_len] in *; auto.
  unfold ne_elements_for_len, ct_mp_limbs_align_len. rewrite Z.mod_mul, Z.div_mul by lia. cbn [Z.eqb negb].
  pose proof (ct_mp_nlimbs_spec n Hn) as NS.
  assert (HH : zlen l * LB < ct_mp_nlimbs n * LB) by lia. apply Z.mul_lt_mono_pos_r in HH; lia.
Qed.

Lemma wp_lcm_space : forall res op0 l0 op1 l1 scr, mp_ok op0 -> mp_ok op1 -> mp_ok scr -> kind_of scr = kind_of op1 ->
  let n0 := Z.min l0 (mp_len op0) in let n1 := Z.min l1 (mp_len op1) in
  0 < n0 -> 0 < n1 -> mut_compat op0 op1 -> (debug c = true -> mp_len op0 = mp_len op1) ->
  (mp_len res < n0 + n1 -> wp (ct_lcm_mp_mp res op0 l0 op1 l1 scr) (fun o => o = (Err LcmInsufficientResultSpace, res, op0, op1, scr))) /\
  (n0 + n1 <= mp_len res -> mp_len scr < n0 + n1 ->
   wp (ct_lcm_mp_mp res op0 l0 op1 l1 scr) (fun o => o = (Err LcmInsufficientScratchSpace, res, op0, op1, scr))).
Proof.
  intros res op0 l0 op1 l1 scr H0 H1 Hs HK n0 n1 P0 P1 HC HL.
  split; [intros LR|intros LR LS]; unfold ct_lcm_mp_mp; fold n0 n1;
    (apply wp_mif; intros E; [apply orb_true_iff in E; rewrite !Z.eqb_eq in E; lia|]); clear E;
    apply wp_bind_assoc; (apply wp_bind, wp_mut_compat; auto); apply wp_bind, wp_tick;
    (apply wp_bind, wp_dassert_d; [intros; apply Z.eqb_eq; auto|]).
  - apply wp_mif; intros E; [apply wp_ret; auto|]. apply Z.ltb_ge in E. lia.
  - apply wp_mif; intros E; [apply Z.ltb_lt in E; lia|]. clear E.
    apply wp_mif; intros E; [apply wp_ret; auto|]. apply Z.ltb_ge in E.
    pf (backing_short scr op1 (n0 + n1) HK) as BS. lia.
Qed.

End Facts.
