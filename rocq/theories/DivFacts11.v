(** Correctness of ct_div_lshifted_mp_mp: the function as a whole. *)
From Coq Require Import ZArith List Bool Lia.
Require Import Verif.Spec Verif.Monad Verif.Base Verif.Wp Verif.Pan Verif.Wx Verif.ModelLimb Verif.LimbFacts Verif.LimbFacts2 Verif.LDivFacts
  Verif.ModelBuf Verif.SpecBuf Verif.BufFacts Verif.BufFacts2 Verif.BufFacts3 Verif.CompFacts Verif.UpFacts Verif.ModelShift Verif.ShiftFacts Verif.MulFacts
  Verif.ModelDiv Verif.SpecDiv Verif.DivFacts Verif.DivFacts2 Verif.DivFacts3 Verif.DivFacts4 Verif.DivFacts6 Verif.DivFacts7 Verif.DivFacts8 Verif.DivFacts9 Verif.DivFacts10.
Import ListNotations.
Open Scope Z_scope.

Section Facts.
Context {c : cfg}.

(** The part of the shift done before the division starts. *)
Lemma lsh_head_facts : forall n a e vl, 0 <= a <= n -> 0 <= e -> 1 <= vl <= n -> vl <= a + e ->
  let h0 := e mod LB in let room := n - a + LB - h0 in let f := ct_mp_nlimbs (room + 1) - 1 in
  let head := Z.min (f * LB) (e - h0) + h0 in let t := (e - head) / LB in
  0 <= h0 < LB /\ 0 <= e - h0 /\ 0 <= f /\ 0 <= head <= e /\ head mod LB = h0 /\ e - head = t * LB /\ 0 <= t /\ a + head <= n + LB /\ vl <= a + head /\
  ct_mp_nlimbs (a + e + 1 - vl) = ct_mp_nlimbs (a + head + 1 - vl) + t.
Proof.
  intros n a e vl Ha He Hv Hae h0 room f head t. pose proof LB_pos as LP. pf (Z.mod_pos_bound e LB) as M0. fold h0 in M0.
  pose proof (Z_div_mod_eq_full e LB) as DM. fold h0 in DM. pf (Z.div_pos e LB) as DP. set (k := e / LB) in *.
  assert (RM : 0 < room) by (unfold room; lia). pf (ct_mp_nlimbs_spec (room + 1)) as NS. replace (ct_mp_nlimbs (room + 1)) with (f + 1) in NS by (unfold f; lia).
  assert (F0 : 0 <= f). { destruct (Z.lt_ge_cases f 0); auto. exfalso. pf (mul_le_l LB (f + 1) 0) as X. lia. }
  set (g := Z.min f k). assert (HG : head = g * LB + h0). { unfold head, g. f_equal. replace (e - h0) with (k * LB) by lia. destruct (Z.le_ge_cases f k).
    - rewrite (Z.min_l f k) by lia. apply Z.min_l. apply Z.mul_le_mono_nonneg_r; lia.
    - rewrite (Z.min_r f k) by lia. apply Z.min_r. apply Z.mul_le_mono_nonneg_r; lia. }
  assert (ET : t = k - g). { unfold t. rewrite HG. replace (e - (g * LB + h0)) with ((k - g) * LB) by lia. apply Z.div_mul. lia. }
  assert (G : 0 <= g <= k) by (unfold g; lia).
  pf (mul_le_l LB g k) as X1. pf (mul_nn g LB) as X2. 
  split; [auto|]. split; [lia|]. split; [auto|]. split; [lia|]. split; [rewrite HG, Z.add_comm, Z.mod_add by lia; apply Z.mod_small; auto|].
  split; [lia|]. split; [lia|].
  assert (X3 : g * LB <= room). { unfold g. pf (mul_le_l LB (Z.min f k) f). lia. }
  split; [unfold room in *; lia|].
  assert (VH : vl <= a + head). { rewrite HG. destruct (Z.le_ge_cases f k) as [FK|FK]; [unfold g; rewrite Z.min_l by lia; unfold room in NS; lia|unfold g; rewrite Z.min_r by lia; lia]. }
  split; auto. replace (a + e + 1 - vl) with (t * LB + (a + head + 1 - vl)) by (rewrite ET; lia). rewrite nlimbs_add_aligned by lia. lia.
Qed.

Lemma wp_lsh_shadow : forall u out (P : Z * Z -> Prop), mp_ok u -> 1 <= nlimbs u -> isl out ->
  (forall sh0 sh1, isl sh0 -> isl sh1 -> mpval u + 256 ^ mp_len u * out = mpval u mod B ^ (nlimbs u - 1) + B ^ (nlimbs u - 1) * (sh0 + B * sh1) -> P (sh0, sh1)) ->
  wp (mif negb (mp_len u mod LB =? 0) then
      let! sh1 := lshr out (8 * (LB - mp_len u mod LB)) in
      let! sh0 := lshl out (8 * (mp_len u mod LB)) in
      let! x := load_l u (nlimbs u - 1) in
      ret (Z.lor sh0 x, sh1)
    else
      let! x := load_l u (nlimbs u - 1) in
      ret (x, out)) P.
Proof.
  intros u out P Hu Hn Ho HP. pose proof LB_pos as LP. pose proof (mp_len_nonneg u) as L0. set (l := nlimbs u - 1) in *. pf (Bpow_pos l) as BL. pose proof B_pos as BP.
  pf (Z.mod_pos_bound (mp_len u) LB) as MB. pose proof (Z_div_mod_eq_full (mp_len u) LB) as DM. set (p := mp_len u mod LB) in *.
  assert (NL : (l + 1) * LB - LB < mp_len u <= (l + 1) * LB). { unfold l. destruct (Z.eq_dec (mp_len u) 0) as [E0|]; [exfalso; unfold nlimbs in Hn; rewrite E0 in Hn; unfold ct_mp_nlimbs in Hn; rewrite Z.div_small in Hn; lia|]. pf (nlimbs_spec u) as NS. lia. }
  assert (VX : mpval u = mpval u mod B ^ l + B ^ l * limb u l).
  { rewrite limb_vlimb. unfold vlimb. pf (mpval_bound_B u) as VB. replace (nlimbs u) with (l + 1) in VB by (unfold l; lia). rewrite Bpow_S in VB by (unfold l; lia).
    rewrite (Z.mod_small (mpval u / B ^ l)) by (split; [apply Z.div_pos; lia|apply Z.div_lt_upper_bound; lia]). pose proof (Z_div_mod_eq_full (mpval u) (B ^ l)). lia. }
  apply wp_mif; intros E.
  - apply negb_true_iff, Z.eqb_neq in E.
    assert (EL : mp_len u = l * LB + p). { assert (mp_len u / LB = l); [|lia]. destruct (Z.lt_total (mp_len u / LB) l) as [Q|[Q|Q]]; auto; exfalso; [pf (mul_le_l LB (mp_len u / LB + 1) l)|pf (mul_le_l LB (l + 1) (mp_len u / LB))]; lia. }
    assert (X : 0 <= limb u l < 256 ^ p).
    { pf (mpval_bound u) as VB. rewrite EL, Z.pow_add_r in VB by (try apply mul_nn; lia). rewrite (Z.mul_comm l), Z.pow_mul_r in VB by lia. rewrite <- B_256' in VB.
      pf (Z.mod_pos_bound (mpval u) (B ^ l)). pf (limb_isl u l) as IL. unfold isl in IL. split; [lia|]. apply (mul_lt_cancel (B ^ l)); lia. }
    assert (P2 : 256 ^ p = 2 ^ (8 * p)) by (rewrite Z.pow_mul_r by lia; auto).
    assert (PB : B = 2 ^ (8 * (LB - p)) * 2 ^ (8 * p)). { rewrite <- Z.pow_add_r by lia. unfold B, W. f_equal. lia. }
    pf (Z.pow_pos_nonneg 2 (8 * p)) as Q1. pf (Z.pow_pos_nonneg 2 (8 * (LB - p))) as Q2.
    apply wp_bind, wp_lshr; [unfold W; lia|]. apply wp_bind, wp_lshl; [unfold W; lia|]. apply wp_bind, wp_load; auto; [unfold l; lia|]. apply wp_ret.
    assert (E1 : (out * 2 ^ (8 * p)) mod B = (out mod 2 ^ (8 * (LB - p))) * 2 ^ (8 * p)). { rewrite PB. apply Z.mul_mod_distr_r; lia. }
    pose proof (Z_div_mod_eq_full out (2 ^ (8 * (LB - p)))) as DO. pf (Z.mod_pos_bound out (2 ^ (8 * (LB - p)))) as MO.
    set (oh := out / 2 ^ (8 * (LB - p))) in *. set (ol := out mod 2 ^ (8 * (LB - p))) in *.
    rewrite E1, lor_shift_add by lia. rewrite P2 in X. unfold isl in Ho. apply HP.
    + unfold isl. split; [pf (mul_nn ol (2 ^ (8 * p))); lia|]. rewrite PB. pf (mul_le_l (2 ^ (8 * p)) (ol + 1) (2 ^ (8 * (LB - p)))). lia.
    + unfold isl. split; [apply Z.div_pos; lia|]. unfold oh. apply Z.div_lt_upper_bound; [lia|]. pf (mul_le_l B 1 (2 ^ (8 * (LB - p)))). lia.
    + rewrite VX at 1. rewrite EL, Z.pow_add_r by (try apply mul_nn; lia). rewrite (Z.mul_comm l), Z.pow_mul_r by lia. rewrite <- B_256', P2. assert (EE : 2 ^ (8 * p) * out = ol * 2 ^ (8 * p) + B * oh) by (rewrite DO at 1; rewrite PB; ring). rewrite <- (Z.mul_assoc (B ^ l)), EE. ring.
  - apply negb_false_iff, Z.eqb_eq in E. apply wp_bind, wp_load; auto; [unfold l; lia|]. apply wp_ret. apply HP; auto; [apply limb_isl|].
    assert (EL : mp_len u = (l + 1) * LB). { assert (mp_len u / LB = l + 1); [|lia]. destruct (Z.lt_total (mp_len u / LB) (l + 1)) as [Q|[Q|Q]]; auto; exfalso; [pf (mul_le_l LB (mp_len u / LB + 1) (l + 1))|pf (mul_le_l LB (l + 1 + 1) (mp_len u / LB))]; lia. }
    rewrite VX at 1. rewrite EL. rewrite (Z.mul_comm (l + 1)), Z.pow_mul_r by lia. rewrite <- B_256', Bpow_S by lia. ring.
Qed.

Lemma wx_lsh_scale : forall e0 TT d u0 sh0 sh1 T0 (K : mp -> Z -> Z -> Z -> M TT) (P : TT -> Prop), dv_ok d -> mp_ok u0 -> 1 <= nlimbs u0 -> isl sh0 -> isl sh1 ->
  let l := nlimbs u0 - 1 in T0 = mpval u0 mod B ^ l + B ^ l * (sh0 + B * sh1) ->
  (forall u sh0 sh1 sh2, lst l u0 u [sh0; sh1; sh2] (T0 * 2 ^ dv_shift d) -> wx e0 (K u sh0 sh1 sh2) P) ->
  wx e0 (let! '(u, carry) := zfor 0 l (fun i '(u, carry) =>
    let! u_val := load_l_full u i in
    let! '(carry, u_val) := scale_val d u_val carry in
    let! u := store_l_full u i u_val in
    ret (u, carry)) (u0, 0) in
  let! '(carry, sh0) := scale_val d sh0 carry in
  let! '(carry, sh1) := scale_val d sh1 carry in
  K u sh0 sh1 carry) P.
Proof.
  intros e0 TT d u0 sh0 sh1 T0 K P Hd Hu Hn I0 I1 l ET HP. pose proof LB_pos as LP. pf (Bpow_pos l) as BL. pf (Z.mod_pos_bound (mpval u0) (B ^ l)) as MB.
  pose proof (dvo_s _ Hd) as Hs. set (s := dv_shift d) in *. destruct (scale_pow s Hs) as (P1 & P2 & _).
  assert (T00 : 0 <= T0). { unfold isl in *. rewrite ET. pf (mul_nn B sh1). pf (mul_nn (B ^ l) (sh0 + B * sh1)). lia. }
  destruct (three_limbs sh0 sh1 0 I0 I1 isl_0) as (L0 & L1 & L2). rewrite Z.mul_0_r, Z.add_0_r in L0, L1, L2.
  assert (DT : T0 / B ^ l = sh0 + B * sh1) by (rewrite ET; apply lohi_div; auto).
  assert (MT : T0 mod B ^ l = mpval u0 mod B ^ l) by (rewrite ET; apply lohi_mod; auto).
  assert (HS0 : sh0 = vlimb T0 l). { rewrite <- (limb_of_div T0 l l) by lia. rewrite DT, Z.sub_diag. auto. }
  assert (HS1 : sh1 = vlimb T0 (l + 1)). { rewrite <- (limb_of_div T0 (l + 1) l) by lia. rewrite DT. replace (l + 1 - l) with 1 by lia. auto. }
  assert (TB : T0 < B ^ (l + 1 + 1)). { rewrite !Bpow_S by lia. unfold isl in *. rewrite ET. pf (mul_le_l B sh1 (B - 1)). pf (mul_le_l (B ^ l) (sh0 + B * sh1) (B * B - 1)). lia. }
  xb. eapply wp_for with (I := fun i '(u, cy) => mp_ok u /\ same_shape u0 u /\ mpval u mod B ^ i = (T0 * 2 ^ s) mod B ^ i /\ mpval u / B ^ i = mpval u0 / B ^ i /\ scinv T0 s i cy).
  { lia. } { split; auto. split; [apply shape_refl|]. rewrite Z.pow_0_r, !Z.mod_1_r. split; auto. split; auto. apply scinv_init; lia. }
  { intros i [u cy] Hi (O & S & E1 & E2 & SI).
    assert (FL : (i + 1) * LB <= mp_len u). { rewrite (shape_len _ _ S). destruct (Z.eq_dec (mp_len u0) 0) as [E0|]; [exfalso; unfold nlimbs in Hn; rewrite E0 in Hn; unfold ct_mp_nlimbs in Hn; rewrite Z.div_small in Hn; lia|]. pf (nlimbs_spec u0) as NS. pf (mul_le_l LB (i + 1) l). unfold l in *. lia. }
    xb; apply wp_load_full; auto; [lia|]. assert (EL : limb u i = vlimb T0 i). { rewrite limb_vlimb. rewrite (vlimb_ext_div _ (mpval u0) i i) by (auto; lia). apply vlimb_ext_mod with (j := l); auto; lia. }
    rewrite EL. xb; apply wp_scale_val; auto; [apply vlimb_isl|apply SI|]. intros c' x Hx Hc Ex. fold s in Hc, Ex.
    destruct (scinv_step T0 s i cy x c') as [-> SI']; auto; [lia|]. xb; apply wp_store_full; auto; [lia|].
    intros u' (O' & S' & E'). xr. split; auto. split; [eapply shape_trans; eauto|]. rewrite limb_vlimb in E'.
    split; [|split; auto; rewrite E', upd_div by (auto; lia); apply div_ext_S; auto; lia].
    rewrite E', vmod_S, (vmod_S (T0 * 2 ^ s)) by lia. rewrite upd_limb by (auto; lia). rewrite upd_mod' by lia. rewrite E1. auto. }
  intros [u cy] (O & S & E1 & E2 & SI). rewrite HS0.
  xb; apply wp_scale_val; auto; [apply vlimb_isl|apply SI|]. intros c1 x1 Hx1 Hc1 Ex1. fold s in Hc1, Ex1. destruct (scinv_step T0 s l cy x1 c1) as [-> SI1]; auto; [lia|].
  rewrite HS1. xb; apply wp_scale_val; [auto|apply vlimb_isl|apply SI1|]. intros c2 x2 Hx2 Hc2 Ex2. fold s in Hc2, Ex2. destruct (scinv_step T0 s (l + 1) c1 x2 c2) as [-> SI2]; auto; [lia|].
  apply HP. split; auto. split; auto. exists (vlimb (T0 * 2 ^ s) l), (vlimb (T0 * 2 ^ s) (l + 1)), c2. split; auto. split; [apply vlimb_isl|]. split; [apply vlimb_isl|].
  split; [unfold isl; lia|]. destruct SI2 as [_ SE]. rewrite Z.mod_small in SE by lia. rewrite SE at 1. rewrite (vmod_S _ (l + 1)), (vmod_S _ l), <- E1 by lia. rewrite !Bpow_S by lia. ring.
Qed.

Lemma wx_lsh_unscale : forall e0 TT d X u h (K : mp -> M TT) (P : TT -> Prop), dv_ok d -> 0 <= X < B ^ dvn d -> lrem d X u h -> dv_len d <= mp_len u ->
  let R := X / 2 ^ dv_shift d in R < B ^ dvn d -> R < 256 ^ mp_len u ->
  (forall u', mp_ok u' -> same_shape u u' -> mpval u' = R -> wx e0 (K u') P) ->
  wx e0 (let! u_val := unscale_val d h 0 in
  let! u := store_l u (dvn d - 1) u_val in
  let! '(u, _) := zfor_down 0 (dvn d - 1) (fun j '(u, u_h) =>
    let! u_l := load_l_full u j in
    let! u_val := unscale_val d u_l u_h in
    let! u := store_l u j u_val in
    ret (u, u_l)) (u, h) in
  K u) P.
Proof.
  intros e0 TT d X u h K P Hd XB (O & EH & EM & EZ) HL R RN RF HP. pose proof (dvo_s _ Hd) as Hs. pose proof (dvo_n _ Hd) as Hn. pose proof (dvo_len _ Hd) as DL.
  destruct (scale_pow _ Hs) as (SP1 & _). assert (R0 : 0 <= R) by (apply Z.div_pos; lia). pose proof LB_pos as LP.
  assert (NL : dvn d <= nlimbs u). { unfold nlimbs. apply nlimbs_len_mono. lia. } set (n := dvn d) in *. set (s := dv_shift d) in *.
  assert (VX : vlimb X n = 0) by (apply vlimb_out with (n := n); lia).
  xb. rewrite EH. replace (unscale_val d (vlimb X (n - 1)) 0) with (unscale_val d (vlimb X (n - 1)) (vlimb X (n - 1 + 1))) by (do 2 f_equal; replace (n - 1 + 1) with n by lia; auto).
  apply unscale_d; auto; [lia|lia|]. fold s R. xb; apply wp_store; auto; [lia|apply fit_limb; lia|].
  intros u1 (O1 & S1 & E1). 
  assert (E1' : mpval u1 = X mod B ^ (n - 1) + B ^ (n - 1) * (R / B ^ (n - 1))).
  { pf (vdiv_S R (n - 1)) as VS. replace (n - 1 + 1) with n in VS by lia. rewrite (Z.div_small R (B ^ n)) in VS by lia. rewrite VS.
    pf (vdiv_S (mpval u) (n - 1)) as VU. replace (n - 1 + 1) with n in VU by lia. rewrite EZ in VU. pose proof (Z_div_mod_eq_full (mpval u) (B ^ (n - 1))) as DM.
    rewrite VU, EM in DM. rewrite E1, limb_vlimb. rewrite DM at 1. ring. }
  clear E1. xb.
  eapply wp_for_down with (I := fun j '(u4, u_h) => mp_ok u4 /\ same_shape u u4 /\ u_h = vlimb X j /\ mpval u4 = X mod B ^ j + B ^ j * (R / B ^ j)).
  { lia. } { auto. }
  { intros j [u4 u_h] Hj (A1 & A2 & A3 & A4). destruct (unsc_write X R j) as [W1 W2]; [lia|].
    assert (LJ : (j + 1) * LB <= mp_len u4). { rewrite (shape_len _ _ A2). pf (ct_mp_nlimbs_spec (dv_len d)) as NS1. fold (dvn d) in NS1. fold n in NS1. pf (mul_le_l LB (j + 1) (n - 1)). lia. }
    xb; apply wp_load_full; auto; [lia|]. rewrite limb_vlimb, A4, W1, A3. xb; apply unscale_d; auto; [lia|lia|]. fold s R.
    assert (NL4 : nlimbs u4 = nlimbs u) by (unfold nlimbs; rewrite (shape_len _ _ A2); auto).
    xb; apply wp_store; auto; [lia|apply fit_limb; [rewrite (shape_len _ _ A2); auto|lia]|]. intros r5 (O5 & S5 & E5). xr. split; auto. split; [eapply shape_trans; eauto|]. split; auto.
    rewrite E5, limb_vlimb, A4, W2. auto. }
  intros [u4 u_h] (A1 & A2 & A3 & A4). apply HP; auto. rewrite A4, Z.pow_0_r, Z.mod_1_r, Z.div_1_r. lia.
Qed.

End Facts.
