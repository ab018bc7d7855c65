(** Proofs about sequences of calls: signatures without conditions on the group (ThmApp3.v). *)
From Coq Require Import ZArith Znumtheory Zpow_facts List Bool Lia.
Require Import Verif.Spec Verif.Base Verif.Monad Verif.Wp Verif.ModelLimb Verif.LimbFacts Verif.LimbFacts2 Verif.LimbProofs
  Verif.ModelBuf Verif.SpecBuf Verif.ThmLimb Verif.BufFacts Verif.BufProofs Verif.ModelCmp Verif.ModelAdd Verif.ModelShift Verif.ModelMul Verif.ModelDiv Verif.SpecDiv
  Verif.SpecMont Verif.ModelMont Verif.SpecEuclid Verif.SpecSteps Verif.ModelEuclid Verif.PrimeFacts2 Verif.SpecApp Verif.SpecApp2 Verif.SpecApp3
  Verif.ThmBuf Verif.ThmAdd Verif.ThmShift Verif.ThmMul Verif.ThmDiv Verif.ThmMont Verif.ThmGcd Verif.MontProofs Verif.ThmInvOdd Verif.ModelLcm Verif.MontFacts5 Verif.MontFacts6 Verif.MontFine
  Verif.AppProofs Verif.AppFine Verif.AppProofs2 Verif.InvOddFacts4 Verif.AppProofs3.
Import ListNotations.
Open Scope Z_scope.

Section App.
Context {c : cfg}.

Lemma power_any : forall b x n k s, exp_modulus_any n -> result_buf n b -> mp_ok x -> mpval x < mpval n -> mp_ok k -> exp_scratch n s ->
  pow_fine n (mpval x) (mpval k) (8 * mp_len k) ->
  yields (power b x n k s) (fun r => becomes b r (mpval x ^ mpval k mod mpval n)).
Proof.
  intros b x n k s Mn Hb Ox Vx Ok HS HF. pose proof Mn as (On & _ & _ & _). pose proof Hb as (Rb & _). pose proof Rb as (Ob & _). unfold power.
  pose proof (residue_fits n b On Rb) as FB. pose proof (val_pos x Ox) as X0. assert (NP : 0 < mpval n) by lia. pose proof (mp_len_nonneg k) as Lk. pose proof (val_pos k Ok) as Vk.
  assert (EK : mpval k mod 2 ^ (8 * mp_len k) = mpval k). { apply Z.mod_small. rewrite Z.pow_mul_r by lia. change (2 ^ 8) with 256. auto. }
  eapply yields_bind; [apply C04_copy_from; auto; lia|]. intros t BT. pose proof BT as (OT & _ & VT).
  pose proof (residue_becomes _ _ _ _ Rb BT) as RT. eapply yields_bind; [apply exp_app_any; auto; lia|]. intros [[[e r] y1] z1] (-> & E & _).
  unfold exp_fine, expo in E. rewrite VT, EK in E. specialize (E HF).
  eapply yields_bind; [apply unwrap_ok with (P := fun _ => True); auto|]. intros _ _. apply yields_ret. auto.
Qed.

Lemma inverse_any : forall b x n s, mp_ok n -> Z.odd (mpval n) = true -> 1 < mpval n -> residue_buf n b -> mp_ok x -> mpval x < mpval n ->
  mp_ok (NE s) -> nlimbs n <= zlen s -> gcd_len_ok (LB * nlimbs n) -> inv_fine n (mpval x) -> Z.gcd (mpval n) (mpval x) = 1 ->
  yields (inverse b x n s) (fun r => becomes b r (mpval r) /\ is_inverse (mpval n) (mpval x) (mpval r)).
Proof.
  intros b x n s On HO N1 Rb Ox Vx HS LS GL SP GC. pose proof Rb as (Ob & _). unfold inverse. pose proof (residue_fits n b On Rb) as FB.
  eapply yields_bind; [apply C04_copy_from; auto; lia|]. intros t BT. pose proof BT as (OT & _ & VT). pose proof (residue_becomes _ _ _ _ Rb BT) as RT.
  eapply yields_bind; [apply (C34_inv_odd_any_partial c b t n s s); auto; [apply result_buf_fits; auto|unfold mut_compat; apply residue_buf_compat; auto; lia|rewrite VT; auto|rewrite VT; auto]|].
  intros [[[[e r] t'] s0] s1] (-> & HI & HB & _).
  eapply yields_bind; [apply unwrap_ok with (P := fun _ => True); auto|]. intros _ _. apply yields_ret. rewrite VT in HI. auto.
Qed.

Lemma dsa_sign_any : forall p q g x k z bp bq sp sq w, dsa_group_any p q g -> dsa_buffers p q bp bq sp sq -> below q x -> below q k -> below q z ->
  is_inverse (mpval q) (mpval k) w -> sign_fine p q g x k z ((mpval g ^ mpval k mod mpval p) mod mpval q) w ->
  yields (dsa_sign p q g x k z bp bq sp sq) (fun '(r, s) =>
    becomes bq r ((mpval g ^ mpval k mod mpval p) mod mpval q) /\ becomes bq s (w * (mpval z + mpval x * mpval r) mod mpval q)).
Proof.
  intros p q g x k z bp bq sp sq w (Mp & Mq & GL & LT & Og & Vg) (Bp & Bq & Sp & Osq & Lsq) [Ox Vx] [Ok Vk] [Oz Vz] Hw (F1 & F2 & F3 & F4).
  pose proof Mp as (Op & _). pose proof Mq as (Oq & HOq & _). pose proof Bq as (Rbq & _). pose proof Rbq as (Obq & _). pose proof Bp as (Rbp & _). unfold dsa_sign.
  assert (Pq : 0 < mpval q) by lia. pose proof (val_pos x Ox) as X0. pose proof (val_pos z Oz) as Z0.
  eapply yields_bind; [apply power_any; auto|]. intros v Bv. pose proof Bv as (Ov & _ & Vv). pose proof (residue_becomes _ _ _ _ Rbp Bv) as Rv. pose proof (residue_fits p v Op Rv) as Fv.
  eapply yields_bind; [apply reduce_into_ok; auto; [lia|apply residue_fits; auto]|]. intros r Br. rewrite Vv in Br. pose proof Br as (Or & _ & Vr). pose proof (residue_becomes _ _ _ _ Rbq Br) as Rr.
  pose proof (Z.mod_pos_bound (mpval g ^ mpval k mod mpval p) (mpval q) Pq) as RB. rewrite <- Vr in RB, F3, F4.
  pose proof (inverse_gcd _ _ _ (proj1 LT) Hw) as GC.
  eapply yields_bind; [apply inverse_any; auto; lia|]. intros w' [Bw Hw']. pose proof (inverse_unique _ _ _ _ Hw' Hw) as EW. pose proof Bw as (Ow & _). pose proof (residue_becomes _ _ _ _ Rbq Bw) as Rw. pose proof Hw as [RW _].
  eapply yields_bind; [apply mul_mod_ok; auto; lia|]. intros t Bt. pose proof Bt as (Ot & _ & Vt). pose proof (residue_becomes _ _ _ _ Rbq Bt) as Rt.
  pose proof (Z.mod_pos_bound (mpval x * mpval r) (mpval q) Pq) as TB. rewrite <- Vt in TB.
  eapply yields_bind; [apply (C19_add_mod_partial c t z q); auto; [lia|left; apply residue_nlimbs; auto]|].
  intros [t' e] [(-> & Bt')|(_ & _ & X)]; [|exfalso; destruct Rt as (_ & [?|(_ & ?)]); lia]. pose proof Bt' as (Ot' & _ & Vt').
  pose proof (Z.mod_pos_bound (mpval t + mpval z) (mpval q) Pq) as TB'. rewrite <- Vt' in TB'.
  eapply yields_bind; [apply unwrap_ok with (P := fun _ => True); auto|]. intros _ _.
  eapply yields_bind; [apply mul_mod_ok; auto; [lia|lia|rewrite Vt', Vt, EW, Zplus_mod_idemp_l; exact F4]|]. intros s Bs. apply yields_ret. split; [auto|].
  rewrite Vt', Vt, EW, Zplus_mod_idemp_l, Zmult_mod_idemp_l in Bs. replace (w * (mpval z + mpval x * mpval r)) with ((mpval x * mpval r + mpval z) * w) by ring. auto.
Qed.

Lemma dsa_verify_any : forall p q g y z r s bp bq sp sq w, dsa_group_any p q g -> dsa_buffers p q bp bq sp sq -> below p y -> below q z -> below q r -> below q s ->
  is_inverse (mpval q) (mpval s) w -> verify_fine p q g y z r s w (mp_len bq) ->
  returns (dsa_verify p q g y z r s bp bq sp sq)
    (((mpval g ^ ((mpval z * w) mod mpval q) * mpval y ^ ((mpval r * w) mod mpval q)) mod mpval p) mod mpval q =? mpval r).
Proof.
  intros p q g y z r s bp bq sp sq w (Mp & Mq & GL & LT & Og & Vg) (Bp & Bq & Sp & Osq & Lsq) [Oy Vy] [Oz Vz] [Or Vr] [Os Vs] Hw (F1 & F2 & F3 & F4 & F5 & F6).
  cut (yields (dsa_verify p q g y z r s bp bq sp sq) (fun b => b = (((mpval g ^ ((mpval z * w) mod mpval q) * mpval y ^ ((mpval r * w) mod mpval q)) mod mpval p) mod mpval q =? mpval r))).
  { intros (b & Hb & ->). auto. }
  pose proof Mp as (Op & _). pose proof Mq as (Oq & HOq & _). pose proof Bq as (Rbq & _). pose proof Rbq as (Obq & _). pose proof Bp as (Rbp & _). unfold dsa_verify.
  assert (Pq : 0 < mpval q) by lia. assert (Pp : 0 < mpval p) by lia. pose proof (val_pos z Oz) as Z0. pose proof (val_pos r Or) as R0.
  pose proof (inverse_gcd _ _ _ (proj1 LT) Hw) as GC.
  eapply yields_bind; [apply inverse_any; auto; lia|]. intros w' [Bw Hw']. pose proof (inverse_unique _ _ _ _ Hw' Hw) as EW. pose proof Bw as (Ow & _). pose proof (residue_becomes _ _ _ _ Rbq Bw) as Rw. pose proof Hw as [RW _].
  eapply yields_bind; [apply mul_mod_ok; auto; [lia|rewrite EW; exact F2]|]. intros u1 (Ou1 & Su1 & Vu1). rewrite EW in Vu1.
  eapply yields_bind; [apply mul_mod_ok; auto; [lia|rewrite EW; exact F3]|]. intros u2 (Ou2 & Su2 & Vu2). rewrite EW in Vu2.
  eapply yields_bind; [apply power_any; auto; rewrite Vu1, (shape_len _ _ Su1); exact F4|]. intros v1 B1. pose proof B1 as (O1 & _ & V1). rewrite Vu1 in V1. pose proof (residue_becomes _ _ _ _ Rbp B1) as R1.
  eapply yields_bind; [apply power_any; auto; rewrite Vu2, (shape_len _ _ Su2); exact F5|]. intros v2 B2. pose proof B2 as (O2 & _ & V2). rewrite Vu2 in V2. pose proof (residue_becomes _ _ _ _ Rbp B2) as R2.
  assert (L1 : mpval v1 < mpval p) by (rewrite V1; apply Z.mod_pos_bound; auto). assert (L2 : mpval v2 < mpval p) by (rewrite V2; apply Z.mod_pos_bound; auto).
  eapply yields_bind; [apply mul_mod_ok; auto; rewrite V1, V2; exact F6|]. intros v Bv. pose proof Bv as (Ov & _ & Vv). rewrite V1, V2, <- Zmult_mod in Vv. pose proof (residue_becomes _ _ _ _ Rbp Bv) as Rv. pose proof (residue_fits p v Op Rv) as Fv.
  eapply yields_bind; [apply reduce_into_ok; auto; [lia|apply residue_fits; auto]|]. intros v' Bv'. pose proof Bv' as (Ov' & _ & Vv'). rewrite Vv in Vv'.
  eapply yields_bind; [eapply yields_returns with (P := fun x => x = choice (mpval v' =? mpval r)); [apply (C16_compare c v' r); auto|reflexivity]|]. intros ? ->.
  apply yields_ret. rewrite choice_bool, Vv'. auto.
Qed.

Lemma dsa_round_trip_any : forall p q g x y k z bp bq sp sq bp' bq' sp' sq' w, dsa_group_any p q g -> prime (mpval q) -> mpval g ^ mpval q mod mpval p = 1 ->
  dsa_buffers p q bp bq sp sq -> dsa_buffers p q bp' bq' sp' sq' -> below q x -> below q k -> 0 < mpval k -> below q z -> mp_ok y -> mpval y = mpval g ^ mpval x mod mpval p ->
  is_inverse (mpval q) (mpval k) w -> sign_fine p q g x k z ((mpval g ^ mpval k mod mpval p) mod mpval q) w ->
  yields (dsa_sign p q g x k z bp bq sp sq) (fun '(r, s) => mpval s <> 0 ->
    (forall w2, is_inverse (mpval q) (mpval s) w2 -> verify_fine p q g y z r s w2 (mp_len bq')) -> returns (dsa_verify p q g y z r s bp' bq' sp' sq') true).
Proof.
  intros p q g x y k z bp bq sp sq bp' bq' sp' sq' w GR PQ HG BF BF' Hx Hk K0 Hz Oy Vy Hw SF. pose proof GR as (Mp & Mq & GL & LT & Og & Vg). destruct Hx as [Ox Vx]. destruct Hk as [Ok Vk]. destruct Hz as [Oz Vz].
  assert (Pq : 0 < mpval q) by lia. assert (Pp : 0 < mpval p) by lia. assert (E1 : 1 mod mpval p = 1) by (apply Z.mod_small; lia).
  pose proof (val_pos x Ox) as X0. pose proof (val_pos z Oz) as Z0.
  eapply yields_mono; [apply (dsa_sign_any p q g x k z bp bq sp sq w); auto; split; auto|]. intros [r s] [Br Bs] NZ VF. pose proof Br as (Or & _ & Vr). pose proof Bs as (Os & _ & Vs).
  pose proof (Z.mod_pos_bound (mpval g ^ mpval k mod mpval p) (mpval q) Pq) as RB. rewrite <- Vr in RB.
  pose proof (Z.mod_pos_bound (w * (mpval z + mpval x * mpval r)) (mpval q) Pq) as SB. rewrite <- Vs in SB.
  assert (SP : 0 < mpval s < mpval q) by (clear - SB NZ; lia). destruct (inverse_exists (mpval q) (mpval s) PQ SP) as [w2 Hw2].
  assert (Ly : mpval y < mpval p) by (rewrite Vy; apply Z.mod_pos_bound; auto).
  pose proof (dsa_verify_any p q g y z r s bp' bq' sp' sq' w2 GR BF' (conj Oy Ly) (conj Oz Vz) (conj Or (proj2 RB)) (conj Os (proj2 SP)) Hw2 (VF w2 Hw2)) as HV.
  rewrite Vy, (dsa_accepts (mpval p) (mpval q) (mpval g) (mpval x) (mpval k) (mpval z) w w2 (mpval r) (mpval s)), Z.eqb_refl in HV; auto; try (apply X0); try (apply Z0); try (apply RB).
  - lia.
  - lia.
  - rewrite E1. auto.
Qed.

(** Nothing goes wrong if the moduli are clear of the lost carry. *)
Lemma pow_fine_clear : forall n x e k, 0 < mpval n -> mg_carry_ok n -> 0 <= x < mpval n -> pow_fine n x e k.
Proof.
  intros n x e k NP HC HX. split; [|apply carry_ok_exp_fine; auto]. pose proof (Z.mod_pos_bound (mg_radix n * mg_radix n) (mpval n) NP) as MR. pose proof B_pos as BP.
  apply carry_ok_fine; try lia. unfold mg_carry_ok in HC. nia.
Qed.
Lemma fine_clear : forall p q g x k z y r s w w2 l, dsa_group_any p q g -> mg_carry_ok p -> mg_carry_ok q -> below p y -> 0 <= w < mpval q -> 0 <= w2 < mpval q ->
  (inv_fine q (mpval k) -> sign_fine p q g x k z ((mpval g ^ mpval k mod mpval p) mod mpval q) w) /\
  (inv_fine q (mpval s) -> verify_fine p q g y z r s w2 l).
Proof.
  intros p q g x k z y r s w w2 l (Mp & Mq & GL & LT & Og & Vg) Cp Cq [Oy Vy] Hw Hw2. pose proof (val_pos g Og). pose proof (val_pos y Oy). assert (Pp : 0 < mpval p) by lia. assert (Pq : 0 < mpval q) by lia.
  split; intros HI.
  - split; [apply pow_fine_clear; auto; lia|]. split; [auto|]. split; apply carry_ok_fine_form; auto. apply Z.mod_pos_bound; auto.
  - split; [auto|]. split; [apply carry_ok_fine_form; auto|]. split; [apply carry_ok_fine_form; auto|].
    split; [apply pow_fine_clear; auto; lia|]. split; [apply pow_fine_clear; auto; lia|]. apply carry_ok_fine_form; auto. apply Z.mod_pos_bound; auto.
Qed.
Lemma group_fine : forall p q g x k z y r s w w2 l, dsa_group p q g -> below p y -> 0 <= w < mpval q -> 0 <= w2 < mpval q ->
  dsa_group_any p q g /\ sign_fine p q g x k z ((mpval g ^ mpval k mod mpval p) mod mpval q) w /\ verify_fine p q g y z r s w2 l.
Proof.
  intros p q g x k z y r s w w2 l ((Op & Ep & Sp & Cp & Np) & (Oq & Eq & Sq & Cq & Nq) & HQ & GL & LT & Og & Vg) Hy Hw Hw2.
  assert (G : dsa_group_any p q g). { split; [split; auto|]. split; [split; auto|]. auto. }
  assert (FI : forall a, inv_fine q a). { intros a. assert (0 <= nlimbs q - 1) by lia. apply late_swaps_fit; auto. apply spare_late; auto. lia. }
  destruct (fine_clear p q g x k z y r s w w2 l G) as [F1 F2]; auto.
Qed.

(** * RSA by the Chinese remainder theorem *)
Lemma crt_trip_any : forall p q dp kp dq kq qinv xph xpl xqh xql rp rq out s1 s2 m e, crt_key p q dp kp dq kq qinv -> exp_modulus_any p -> exp_modulus_any q ->
  0 <= m < mpval p * mpval q -> 0 < e -> 0 < expo dp kp -> 0 < expo dq kq -> (e * expo dp kp) mod (mpval p - 1) = 1 mod (mpval p - 1) -> (e * expo dq kq) mod (mpval q - 1) = 1 mod (mpval q - 1) ->
  let x := m ^ e mod (mpval p * mpval q) in
  two_parts p xph xpl x -> two_parts q xqh xql x -> crt_buffers p q rp rq out s1 s2 ->
  exp_fine p (x mod mpval p) dp kp -> exp_fine q (x mod mpval q) dq kq -> mg_fine p (mg_form p ((m mod mpval p - m mod mpval q) mod mpval p)) (mpval qinv) ->
  yields (rsa_crt p q dp kp dq kq qinv xph xpl xqh xql rp rq out s1 s2) (fun y => becomes out y m).
Proof.
  intros p q dp kp dq kq qinv xph xpl xqh xql rp rq out s1 s2 m e (PP & PQ & LT & Odp & Kp & Odq & Kq & RI & HI) Mp Mq Hm He Edp Edq E1 E2 x (Up & Rp & Ep) (Uq & Rq & Eq) (Brp & Brq & Oo & Lo & S1 & S2) F1 F2 F3.
  pose proof (prime_ge_2 _ PP) as P2. pose proof (prime_ge_2 _ PQ) as Q2.
  assert (DV : forall a n, 0 < n -> a mod n = 1 mod n -> (n | a - 1)).
  { intros a n Hn E. apply Z.mod_divide; [lia|]. rewrite Zminus_mod, E, Z.sub_diag. apply Z.mod_0_l. lia. }
  assert (YP : forall r s d, prime r -> 0 < s -> 0 < d -> (r - 1 | e * d - 1) -> (m ^ e mod (r * s)) ^ d mod r = m mod r).
  { intros r s d Pr Hs Hd D. pose proof (prime_ge_2 r Pr). assert (0 < e * d) by (apply Z.mul_pos_pos; auto). rewrite <- pow_mod_base by lia.
    replace ((m ^ e mod (r * s)) mod r) with (m ^ e mod r).
    - rewrite pow_mod_base, <- Z.pow_mul_r by lia. rewrite (pow_cong r m (e * d) 1) by (auto; lia). rewrite Z.pow_1_r. auto.
    - rewrite (Z.rem_mul_r (m ^ e) r s), Z.mul_comm, Z.mod_add, Z.mod_mod by lia. auto. }
  eapply yields_mono; [apply (crt_main p q dp kp dq kq qinv xph xpl xqh xql rp rq out s1 s2 x m); auto|].
  - apply YP; auto; [lia|]. apply DV; auto. lia.
  - unfold x. rewrite (Z.mul_comm (mpval p)). apply YP; auto; [lia|]. apply DV; auto. lia.
  - intros y By. rewrite Z.mod_small in By by lia. auto.
Qed.
End App.
