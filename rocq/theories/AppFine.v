(** Proofs about sequences of calls for moduli that may lose carries (ThmApp.v). *)
From Coq Require Import ZArith Znumtheory Zpow_facts List Bool Lia.
Require Import Verif.Spec Verif.Base Verif.Monad Verif.Wp Verif.ModelLimb Verif.LimbFacts Verif.LimbFacts2 Verif.LimbProofs
  Verif.ModelBuf Verif.SpecBuf Verif.BufFacts Verif.BufProofs Verif.ModelCmp Verif.ModelAdd Verif.ModelShift Verif.ModelMul Verif.ModelDiv Verif.SpecDiv
  Verif.SpecMont Verif.ModelMont Verif.SpecEuclid Verif.SpecSteps Verif.ModelEuclid Verif.PrimeFacts2 Verif.SpecApp
  Verif.ThmAdd Verif.ThmShift Verif.ThmMul Verif.ThmDiv Verif.ThmMont Verif.ThmGcd Verif.MontProofs Verif.ThmInvOdd Verif.ThmLcm Verif.ModelLcm Verif.MontFacts5 Verif.MontFacts6 Verif.MontFine Verif.AppProofs.
Import ListNotations.
Open Scope Z_scope.

Section App.
Context {c : cfg}.

Lemma exp_app_any : forall n r x e k s, exp_modulus_any n -> result_buf n r -> residue_buf n x -> mpval x < mpval n -> mp_ok e -> 0 <= k -> exp_scratch n s ->
  yields (ct_exp_mod_odd_mp_mp r x n e k s) (fun '(res, r', _, _) => res = Ok tt /\ (exp_fine n (mpval x) e k -> becomes r r' (mpval x ^ expo e k mod mpval n)) /\ mp_ok r' /\ same_shape r r' /\ residue_buf n r' /\ mpval r' < mpval n).
Proof.
  intros n r x e k s (Hn & HO & HNL & HU) (HR & HRM) HX HV He Hk (HS & HSL & HSR). pose proof HR as (HRO & _). pose proof HX as (HXO & _).
  destruct (residue_buf_compat n x HX HV Hn) as [C1 C2]. pose proof (val_pos x HXO) as VX.
  eapply yields_mono; [apply C32_exp_any; auto|]; [apply result_buf_fits; auto|].
  intros [[[res r'] x'] s'] (-> & _ & _ & _ & v & BR & VR & HF). split; auto. pose proof BR as (B1 & B2 & B3).
  split. { intros [F1 F2]. rewrite (HF F1 F2) in BR. exact BR. }
  split; auto. split; auto. split; [eapply residue_becomes; [exact HR|exact BR]|lia].
Qed.

Lemma key_agreement_any : forall n g g' a ka b kb ra rb sa sb s1 s2 s3 s4, exp_modulus_any n ->
  residue_buf n g -> residue_buf n g' -> mpval g < mpval n -> mpval g' = mpval g -> mp_ok a -> 0 <= ka -> mp_ok b -> 0 <= kb ->
  result_buf n ra -> result_buf n rb -> result_buf n sa -> result_buf n sb ->
  exp_scratch n s1 -> exp_scratch n s2 -> exp_scratch n s3 -> exp_scratch n s4 ->
  yields (let! '(e1, pa, _, _) := ct_exp_mod_odd_mp_mp ra g n a ka s1 in
          let! '(e2, pb, _, _) := ct_exp_mod_odd_mp_mp rb g' n b kb s2 in
          let! '(e3, xa, _, _) := ct_exp_mod_odd_mp_mp sa pb n a ka s3 in
          let! '(e4, xb, _, _) := ct_exp_mod_odd_mp_mp sb pa n b kb s4 in ret ([e1; e2; e3; e4], xa, xb))
    (fun '(es, xa, xb) => es = [Ok tt; Ok tt; Ok tt; Ok tt] /\ mp_ok xa /\ mp_ok xb /\ 0 <= mpval xa < mpval n /\ 0 <= mpval xb < mpval n /\
      (exp_fine n (mpval g) a ka -> exp_fine n (mpval g) b kb ->
       exp_fine n (mpval g ^ expo b kb mod mpval n) a ka -> exp_fine n (mpval g ^ expo a ka mod mpval n) b kb ->
       becomes sa xa (mpval g ^ (expo a ka * expo b kb) mod mpval n) /\ becomes sb xb (mpval g ^ (expo a ka * expo b kb) mod mpval n))).
Proof.
  intros n g g' a ka b kb ra rb sa sb s1 s2 s3 s4 Hn Hg Hg' Vg Vg' Ha Hka Hb Hkb Rra Rrb Rsa Rsb S1 S2 S3 S4.
  pose proof (expo_nonneg a ka Hka) as EA. pose proof (expo_nonneg b kb Hkb) as EB.
  assert (NP : 0 < mpval n). { destruct Hg as (Og & _). pose proof (val_pos g Og). lia. }
  eapply yields_bind; [apply exp_app_any; auto|]. intros [[[e1 pa] y1] z1] (-> & B1 & O1 & H1 & R1 & V1).
  eapply yields_bind; [apply (exp_app_any n rb g' b kb s2); auto; lia|]. intros [[[e2 pb] y2] z2] (-> & B2 & O2 & H2 & R2 & V2).
  eapply yields_bind; [apply (exp_app_any n sa pb a ka s3); auto|]. intros [[[e3 xa] y3] z3] (-> & B3 & O3 & H3 & R3 & V3).
  eapply yields_bind; [apply (exp_app_any n sb pa b kb s4); auto|]. intros [[[e4 xb] y4] z4] (-> & B4 & O4 & H4 & R4 & V4).
  apply yields_ret. pose proof (val_pos xa O3). pose proof (val_pos xb O4). split; auto. split; auto. split; auto. split; [lia|]. split; [lia|].
  intros F1 F2 F3 F4. destruct (B1 F1) as (_ & _ & E1). rewrite Vg' in B2. destruct (B2 F2) as (_ & _ & E2). rewrite E1 in B4. rewrite E2 in B3.
  specialize (B3 F3). specialize (B4 F4). rewrite pow_pow_mod in B3, B4 by auto. rewrite Z.mul_comm in B3. auto.
Qed.

Lemma rsa_round_trip_any : forall p q n m e ke d kd r r2 s1 s2, prime p -> prime q -> p <> q -> mpval n = p * q -> exp_modulus_any n ->
  (p - 1 | expo e ke * expo d kd - 1) -> (q - 1 | expo e ke * expo d kd - 1) -> 0 < expo e ke * expo d kd ->
  residue_buf n m -> mpval m < mpval n -> mp_ok e -> 0 <= ke -> mp_ok d -> 0 <= kd -> result_buf n r -> result_buf n r2 ->
  exp_scratch n s1 -> exp_scratch n s2 -> exp_fine n (mpval m) e ke -> exp_fine n (mpval m ^ expo e ke mod mpval n) d kd ->
  yields (let! '(e1, x, _, _) := ct_exp_mod_odd_mp_mp r m n e ke s1 in
          let! '(e2, y, _, _) := ct_exp_mod_odd_mp_mp r2 x n d kd s2 in ret (e1, e2, y))
    (fun '(e1, e2, y) => e1 = Ok tt /\ e2 = Ok tt /\ becomes r2 y (mpval m)).
Proof.
  intros p q n m e ke d kd r r2 s1 s2 Hp Hq NEQ HPQ Hn DP DQ KP Hm Vm He Hke Hd Hkd Hr Hr2 S1 S2 F1 F2.
  pose proof (expo_nonneg e ke Hke) as EA. pose proof (expo_nonneg d kd Hkd) as EB.
  assert (M0 : 0 <= mpval m). { destruct Hm as (Om & _). pose proof (val_pos m Om). lia. }
  eapply yields_bind; [apply exp_app_any; auto|]. intros [[[e1 x] y1] z1] (-> & B1 & O1 & H1 & R1 & V1). destruct (B1 F1) as (_ & _ & E1).
  eapply yields_bind; [apply (exp_app_any n r2 x d kd s2); auto|]. intros [[[e2 y] y2] z2] (-> & B2 & _ & _). rewrite E1 in B2. specialize (B2 F2).
  apply yields_ret. split; auto. split; auto. rewrite pow_pow_mod in B2 by (auto; lia). rewrite HPQ, rsa_num, <- HPQ, Z.mod_small in B2 by (auto; lia). auto.
Qed.

(** Products through Montgomery form. *)
Lemma not_lost_fine : forall n op0 op1, mp_ok op0 -> mp_ok op1 -> mp_ok n -> 0 < mpval n -> mpval op1 < mpval n -> mg_no_carry_lost op0 op1 n -> mg_fine n (mpval op0) (mpval op1).
Proof.
  intros n op0 op1 H0 H1 Hn NP V1 H i M s Hi HM HS. destruct (Z_lt_le_dec i (nlimbs op0)) as [L|L]; [apply (H i M s); auto|].
  pose proof (mpval_bound_B op0 H0) as B0. pose proof (mpval_bound_B n Hn) as BN. pose proof (val_pos op1 H1) as P1. pose proof B_gt as BG.
  assert (PI : 0 < B ^ i) by (apply Z.pow_pos_nonneg; lia). assert (PL : B ^ nlimbs op0 <= B ^ i) by (apply Z.pow_le_mono_r; lia).
  rewrite (Z.div_small (mpval op0)), Z.mod_0_l by lia. pose proof (Z.mod_pos_bound (mpval op0) (B ^ i) PI) as MB.
  assert (N1 : 0 <= mpval op1) by lia.
  pose proof (acc_bound i s (mpval op0 mod B ^ i) (mpval op1) (mpval n) M Hi HS MB HM N1 NP) as AB.
  fold (mg_radix n) in BN. assert (B * mg_radix n >= 2 * mg_radix n) by nia. lia.
Qed.

Lemma montgomery_product_any : forall n a b r, exp_modulus_any n -> residue_buf n a -> residue_buf n b -> result_buf n r ->
  yields (let! '(e1, a1) := ct_to_montgomery_form_direct_mp a n in let! '(e2, b1) := ct_to_montgomery_form_direct_mp b n in
          let! g := ct_montgomery_neg_n0_inv_mod_l_mp n in
          match g with
          | Ok g => let! '(e3, x) := ct_montgomery_mul_mod_mp_mp r a1 b1 n g in let! '(e4, y) := ct_montgomery_redc_mp x n g in ret ([e1; e2; e3; e4], y)
          | Err _ => panic
          end)
    (fun '(es, y) => es = [Ok tt; Ok tt; Ok tt; Ok tt] /\ mp_ok y /\ same_shape r y /\ 0 <= mpval y < mpval n /\
      (mg_fine n (mg_form n (mpval a)) (mg_form n (mpval b)) <-> mpval y = (mpval a * mpval b) mod mpval n)).
Proof.
  intros n a b r (Hn & HO & HNL & HU) HA HB (HR & HRM). pose proof HA as (OA & LA). pose proof HB as (OB & LB0). pose proof HR as (OR & LR).
  pose proof (result_buf_fits _ _ HA) as FA. pose proof (result_buf_fits _ _ HB) as FB. pose proof (result_buf_fits _ _ HR) as FR.
  pose proof (val_pos a OA) as VA. pose proof (val_pos b OB) as VB. pose proof (mp_len_nonneg n) as LN. pose proof LB_pos as LBP.
  assert (NP : 0 < mpval n). { pose proof (val_pos n Hn). destruct (Z.eq_dec (mpval n) 0) as [E|E]; [rewrite E in HO; discriminate|lia]. }
  assert (NZ : mpval n <> 0) by lia. set (R := mg_radix n).
  eapply yields_bind; [apply C31_direct; auto; lia|]. intros [e1 a1] [-> B1]. fold R in B1. pose proof B1 as (O1 & S1 & V1).
  eapply yields_bind; [apply C31_direct; auto; lia|]. intros [e2 b1] [-> B2]. fold R in B2. pose proof B2 as (O2 & S2 & V2).
  eapply yields_bind; [apply C29_neg_inv; auto|]. intros g0 (g & -> & Hg). cbv beta iota.
  pose proof (Z.mod_pos_bound (mpval a * R) (mpval n) NP) as M1. pose proof (Z.mod_pos_bound (mpval b * R) (mpval n) NP) as M2.
  destruct (residue_buf_compat n a1 (residue_becomes _ _ _ _ HA B1) ltac:(lia) Hn) as [C1 _].
  destruct (residue_buf_compat n b1 (residue_becomes _ _ _ _ HB B2) ltac:(lia) Hn) as [C2 _].
  assert (LN1 : 1 <= mp_len n). { destruct (Z.eq_dec (mp_len n) 0) as [E|E]; [|lia]. pose proof (val_pos n Hn) as VN. rewrite E in VN. lia. }
  eapply yields_bind; [eapply wp_yields, wp_mul_any with (Q := fun '(res, x) => res = Ok tt /\ exists v, becomes r x v /\ 0 <= v < mpval n /\ (mg_no_carry_lost a1 b1 n <-> mg_reduced n (mpval a1 * mpval b1) v)); auto; try lia|].
  - rewrite (becomes_len _ _ _ B2). destruct LB0 as [?|(_ & ?)]; lia.
  - intros r' v H1 H2 H3 _. split; auto. exists v. auto.
  - intros [e3 x] (-> & v & B3 & RV1 & RV2). pose proof B3 as (O3 & S3 & V3).
    pose proof (residue_becomes _ _ _ _ HR B3) as RX.
    assert (RP : 0 < R). { unfold R, mg_radix. apply Z.pow_pos_nonneg; [apply B_pos|lia]. }
    assert (RG : mpval n * 1 <= mpval n * R) by (apply Z.mul_le_mono_nonneg_l; lia).
    eapply yields_bind; [apply C29_redc_partial; auto|].
    + left. rewrite (becomes_len _ _ _ B3). destruct LR as [?|(_ & ?)]; lia.
    + destruct RX as (_ & [LX|(KX & LX)]); [left; lia|]. destruct (Z.le_gt_cases (mp_len x) (2 * mp_len n)); [left; auto|right]. repeat split; [auto|lia|].
      rewrite V3. pose proof (val_pos n Hn). assert (256 ^ mp_len n <= 256 ^ (2 * mp_len n)) by (apply Z.pow_le_mono_r; lia). lia.
    + rewrite V3. fold R. lia.
    + intros [e4 y] (-> & w & B4 & RW). apply yields_ret. split; auto. destruct B4 as (O4 & S4 & V4). split; auto. split; [eapply shape_trans; eauto|].
      pose proof RW as (RW1 & RW2). fold R in RW2. split; [lia|].
      assert (FL : mg_fine n (mg_form n (mpval a)) (mg_form n (mpval b)) <-> mg_no_carry_lost a1 b1 n).
      { unfold mg_form. fold R. rewrite <- V1, <- V2. split; [apply fine_not_lost; auto; lia|apply not_lost_fine; auto; lia]. }
      rewrite FL, RV2, V4, V1, V2.
      assert (ER : forall u, u = mpval a * R mod mpval n * (mpval b * R mod mpval n) -> u mod mpval n = (mpval a * mpval b * R * R) mod mpval n).
      { intros u ->. rewrite <- Z.mul_mod by auto. f_equal. ring. }
      split.
      * intros [_ RV]. fold R in RV. rewrite (ER _ eq_refl) in RV.
        apply (reduced_unique c n (mpval x)); auto. split; [apply Z.mod_pos_bound; auto|]. fold R. rewrite Zmult_mod_idemp_l. rewrite V3.
        rewrite <- (Z.mod_small v (mpval n)) by lia. rewrite Z.mod_mod by auto.
        apply radix_cancel; auto.
      * intros EW. split; [auto|]. fold R. rewrite (ER _ eq_refl). rewrite V3, EW, Zmult_mod_idemp_l in RW2.
        rewrite <- Zmult_mod_idemp_l, <- RW2, Zmult_mod_idemp_l. auto.
Qed.

(** Inverses. *)
Lemma inverse_twice_any : forall n x r r2 s0 s1 t0 t1, mp_ok n -> mp_ok x -> mp_ok r2 -> Z.odd (mpval n) = true -> 1 < mpval n ->
  residues_fit (mpval n) (nlimbs n - 1) (mpval x) -> (forall v, is_inverse (mpval n) (mpval x) v -> residues_fit (mpval n) (nlimbs n - 1) v) ->
  gcd_len_ok (LB * nlimbs n) -> residue_buf n r -> mut_compat x n -> len_compat n (mp_len r2) ->
  mp_ok (NE s0) -> mp_ok (NE s1) -> nlimbs n <= zlen s0 -> nlimbs n <= zlen s1 ->
  mp_ok (NE t0) -> mp_ok (NE t1) -> nlimbs n <= zlen t0 -> nlimbs n <= zlen t1 -> Z.gcd (mpval n) (mpval x) = 1 ->
  yields (let! '(e1, y, _, _, _) := ct_inv_mod_odd_mp_mp r x n s0 s1 in
          let! '(e2, z, _, _, _) := ct_inv_mod_odd_mp_mp r2 y n t0 t1 in ret (e1, e2, z))
    (fun '(e1, e2, z) => e1 = Ok tt /\ e2 = Ok tt /\ becomes r2 z (mpval x mod mpval n)).
Proof.
  intros n x r r2 s0 s1 t0 t1 Hn Hx Hr2 HO H1 HB HB2 HG HRB MC LC2 A1 A2 A3 A4 T1 T2 T3 T4 HC.
  assert (NP : 0 < mpval n) by lia. pose proof HRB as (Hr & _). pose proof (result_buf_fits _ _ HRB) as LC.
  eapply yields_bind; [apply C34_inv_odd_any_partial; auto|]. intros [[[[e1 y] x1] x2] x3] (-> & IV1 & BY & _). pose proof IV1 as (V1 & E1). pose proof BY as (OY & SY & _).
  pose proof (residue_becomes _ _ _ _ HRB BY) as RY. destruct (residue_buf_compat n y RY ltac:(lia) Hn) as [C1 C2].
  eapply yields_bind; [apply (C34_inv_odd_any_partial c r2 y n t0 t1); auto; [split; auto|eapply inverse_gcd; eauto]|].
  intros [[[[e2 z] z1] z2] z3] (-> & IV & BZ & _). apply yields_ret. split; auto. split; auto.
  pose proof (inverse_unique _ _ _ _ NP IV (inverse_sym _ _ _ NP E1)) as E. rewrite E in BZ. auto.
Qed.
Lemma inverse_fermat_any : forall n x e k r r2 x2 s s0 s1, prime (mpval n) -> exp_modulus_any n -> exp_fine n (mpval x) e k ->
  residues_fit (mpval n) (nlimbs n - 1) (mpval x) -> gcd_len_ok (LB * nlimbs n) ->
  residue_buf n x -> residue_buf n x2 -> mpval x2 = mpval x -> 0 < mpval x < mpval n -> mp_ok e -> 0 <= k -> expo e k = mpval n - 2 ->
  result_buf n r -> residue_buf n r2 -> exp_scratch n s ->
  mp_ok (NE s0) -> mp_ok (NE s1) -> nlimbs n <= zlen s0 -> nlimbs n <= zlen s1 ->
  yields (let! '(e1, y, _, _) := ct_exp_mod_odd_mp_mp r x n e k s in
          let! '(e2, z, _, _, _) := ct_inv_mod_odd_mp_mp r2 x2 n s0 s1 in ret (e1, e2, y, z))
    (fun '(e1, e2, y, z) => e1 = Ok tt /\ e2 = Ok tt /\ mpval y = mpval z /\ is_inverse (mpval n) (mpval x) (mpval z)).
Proof.
  intros n x e k r r2 x2 s s0 s1 HP HM HF HB HG RX RX2 VX2 VX He Hk HE RR RR2 HS A1 A2 A3 A4. pose proof (prime_ge_2 _ HP) as P2. pose proof HM as (Hn & HO & _).
  eapply yields_bind; [apply exp_app_any; auto; lia|]. intros [[[e1 y] y1] y2] (-> & BY & _). destruct (BY HF) as (_ & _ & BY'). clear BY.
  destruct (residue_buf_compat n x2 RX2 ltac:(lia) Hn) as [C1 C2]. pose proof RX2 as (OX2 & _). pose proof RR2 as (OR2 & _).
  assert (N2 : mpval n <> 2) by (intros E; rewrite E in HO; discriminate).
  assert (ND : ~ (mpval n | mpval x)). { intros D. apply Z.divide_pos_le in D; lia. }
  eapply yields_bind; [apply (C34_inv_odd_any_partial c r2 x2 n s0 s1); auto; [lia|apply result_buf_fits; auto|split; auto|rewrite VX2; auto|]|].
  { rewrite VX2. apply Zgcd_1_rel_prime. apply prime_rel_prime; auto. }
  intros [[[[e2 z] z1] z2] z3] (-> & IV & BZ & _). rewrite VX2 in IV. apply yields_ret. split; auto. split; auto. split; auto.
  apply (inverse_unique (mpval n) (mpval x)); auto; [lia|]. rewrite BY', HE. split; [apply Z.mod_pos_bound; lia|].
  rewrite Zmult_mod_idemp_r, <- Z.pow_succ_r by lia. replace (Z.succ (mpval n - 2)) with (mpval n - 1) by lia. rewrite fermat by auto. rewrite Z.mod_small; lia.
Qed.
End App.
